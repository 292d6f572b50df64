(** * Infinities and NaN are never repaired, and spread *)
From Coq Require Import Lia.
From Verif Require Import Spec SpecBits Matrix Filter Extended SpecFilter History SpecGen SpecFloats SpecPoison.
From Verif Require Import Wp Kernels FilterGen FilterTwo FloatGen BitsProof HistGen HistTwo.

Section Poison.
Variables (c : cfg) (prec emax : Z) (sz : bool).
Notation T := spec_float.
Notation N := (sf_num prec emax sz).

Definition bad (o : option T) : Prop := exists v, o = Some v /\ sf_finite v = false.
Lemma bad_some o : bad o -> o <> None. Proof. intros (v & -> & _). discriminate. Qed.
Lemma sfadd_l a b : sf_finite a = false -> sf_finite (SFadd prec emax a b) = false.
Proof. destruct a, b; cbn; intros H; try discriminate H; try reflexivity. destruct (Bool.eqb s s0); reflexivity. Qed.
Lemma sfsub_l a b : sf_finite a = false -> sf_finite (SFsub prec emax a b) = false.
Proof. destruct a, b; cbn; intros H; try discriminate H; try reflexivity. destruct (Bool.eqb s (negb s0)); reflexivity. Qed.

Lemma bad_add a b : a <> None -> b <> None -> bad a \/ bad b -> bad (b_add N a b).
Proof.
  destruct a as [a|], b as [b|]; try congruence. intros _ _ [(v & E & F)|(v & E & F)]; injection E as ->; cbn; eexists; (split; [reflexivity|]).
  - apply sfadd_l, F. - apply sf_add_bad, F.
Qed.
Lemma bad_sub a b : a <> None -> b <> None -> bad a \/ bad b -> bad (b_sub N a b).
Proof.
  destruct a as [a|], b as [b|]; try congruence. intros _ _ [(v & E & F)|(v & E & F)]; injection E as ->; cbn; eexists; (split; [reflexivity|]).
  - apply sfsub_l, F. - apply sf_sub_bad, F.
Qed.
Lemma bad_mul a b : a <> None -> b <> None -> bad a \/ bad b -> bad (b_mul N a b).
Proof.
  destruct a as [a|], b as [b|]; try congruence. intros _ _ [(v & E & F)|(v & E & F)]; injection E as ->; cbn; eexists; (split; [reflexivity|]);
  apply sf_mul_bad; auto.
Qed.
Lemma add_some a b : a <> None -> b <> None -> b_add N a b <> None. Proof. destruct a, b; cbn; congruence. Qed.
Lemma sub_some a b : a <> None -> b <> None -> b_sub N a b <> None. Proof. destruct a, b; cbn; congruence. Qed.
Lemma mul_some a b : a <> None -> b <> None -> b_mul N a b <> None. Proof. destruct a, b; cbn; congruence. Qed.
Lemma dot_some K f g : (forall k, k < K -> f k <> None) -> (forall k, k < K -> g k <> None) -> dot N K f g <> None.
Proof. apply dot_total, sf_never_panics. Qed.
Lemma dot1_some K f g : 1 <= K -> (forall k, k < K -> f k <> None) -> (forall k, k < K -> g k <> None) -> dot1 N K f g <> None.
Proof. intros H. apply dot1_total; [exact H|apply sf_never_panics]. Qed.

Lemma step_eq (a b d : option T) : obind a (fun acc => obind b (fun u => obind d (fun v => obind (o_mul N u v) (fun p => o_add N acc p)))) = b_add N a (b_mul N b d).
Proof. destruct a, b, d; reflexivity. Qed.
Lemma bad_dot K f g : (forall k, k < K -> f k <> None) -> (forall k, k < K -> g k <> None) ->
  (exists k, k < K /\ (bad (f k) \/ bad (g k))) -> bad (dot N K f g).
Proof.
  induction K as [|K IH]; intros Hf Hg (k & Hk & B); [lia|]. cbn [dot]. rewrite step_eq.
  assert (Hd : dot N K f g <> None) by (apply dot_some; auto).
  apply bad_add; [exact Hd|apply mul_some; auto|]. destruct (Nat.eq_dec k K) as [->|Hne].
  - right. apply bad_mul; auto.
  - left. apply IH; auto. exists k. split; [lia|exact B].
Qed.
Lemma bad_dot1 K f g : 1 <= K -> (forall k, k < K -> f k <> None) -> (forall k, k < K -> g k <> None) ->
  (exists k, k < K /\ (bad (f k) \/ bad (g k))) -> bad (dot1 N K f g).
Proof.
  induction K as [|K IH]; intros HK Hf Hg (k & Hk & B); [lia|]. destruct K as [|K].
  - assert (k = 0) by lia. subst k. exact (bad_mul (f 0) (g 0) (Hf 0 ltac:(lia)) (Hg 0 ltac:(lia)) B).
  - change (dot1 N (S (S K)) f g) with (obind (dot1 N (S K) f g) (fun acc => obind (f (S K)) (fun u => obind (g (S K)) (fun v => obind (o_mul N u v) (fun p => o_add N acc p))))).
    rewrite step_eq. assert (Hd : dot1 N (S K) f g <> None) by (apply dot1_some; [lia| |]; auto).
    apply bad_add; [exact Hd|apply mul_some; auto|]. destruct (Nat.eq_dec k (S K)) as [->|Hne].
    + right. apply bad_mul; auto.
    + left. apply IH; auto; [lia|]. exists k. split; [lia|exact B].
Qed.

Lemma cell_some R C (l : list T) i j : valid c R C l -> i < R -> j < C -> cell C l i j <> None.
Proof. apply cell_total. Qed.
Hint Resolve cell_some : core.

(** products *)
Lemma prodt_some n m K (A B : list T) i j : valid c n K A -> valid c m K B -> i < n -> j < m -> b_prodt N K (cell K A) (cell K B) i j <> None.
Proof. intros VA VB Hi Hj. apply dot_some; intros k Hk; eapply cell_some; eauto. Qed.
Lemma prod_some n m K (A B : list T) i j : valid c n K A -> valid c K m B -> i < n -> j < m -> b_prod N K (cell K A) (cell m B) i j <> None.
Proof. intros VA VB Hi Hj. apply dot_some; intros k Hk; eapply cell_some; eauto. Qed.
Lemma prodv_some n K (A x : list T) i : 1 <= K -> valid c n K A -> valid c K 1 x -> i < n -> b_prodv N K (cell K A) (cell 1 x) i 0 <> None.
Proof. intros HK VA VB Hi. apply dot1_some; [exact HK| |]; intros k Hk; eapply cell_some; eauto. Qed.

(** ** prediction *)
Section Predict.
Variables (n : nat) (f f' : kalman T).
Hypotheses (Hn : 1 <= n) (Vf : kf_valid c n f).

Lemma apa_some i j : i < n -> j < n -> b_prodt N n (b_prod N n (cell n (kf_A f)) (cell n (kf_P f))) (cell n (kf_A f)) i j <> None.
Proof. destruct Vf as (vA & vx & vP & _). intros Hi Hj. apply dot_some; intros k Hk; [eapply prod_some; eauto|eapply cell_some; eauto]. Qed.
Lemma apa_bad p q : p < n -> q < n -> bad_cell n (kf_P f) p q -> forall i j, i < n -> j < n ->
  bad (b_prodt N n (b_prod N n (cell n (kf_A f)) (cell n (kf_P f))) (cell n (kf_A f)) i j).
Proof.
  destruct Vf as (vA & vx & vP & _). intros Hp Hq B i j Hi Hj. apply bad_dot; [| |exists q; split; [exact Hq|left]].
  - intros k Hk. eapply prod_some; eauto. - intros k Hk. eapply cell_some; eauto.
  - apply bad_dot; [| |exists p; split; [exact Hp|right; exact B]]; intros k Hk; eapply cell_some; eauto.
Qed.
Lemma cov_bad p q : p < n -> q < n -> bad_cell n (kf_P f) p q -> b_cov N n (cell n (kf_A f)) (cell n (kf_P f)) (cell n (kf_Q f)) (cell n (kf_P f')) ->
  all_bad n n (kf_P f').
Proof.
  intros Hp Hq B H i j Hi Hj. unfold bad_cell. rewrite (H i j Hi Hj). apply bad_add; [apply apa_some; auto| |left; exact (apa_bad p q Hp Hq B i j Hi Hj)].
  destruct Vf as (_ & _ & _ & vQ & _). eapply cell_some; eauto.
Qed.
Lemma cov_tuned_bad l p q : p < n -> q < n -> bad_cell n (kf_P f) p q -> b_cov_tuned N n l (cell n (kf_A f)) (cell n (kf_P f)) (cell n (kf_Q f)) (cell n (kf_P f')) ->
  all_bad n n (kf_P f').
Proof.
  intros Hp Hq B H i j Hi Hj. unfold bad_cell. rewrite (H i j Hi Hj).
  assert (HS : Some l <> None) by discriminate.
  apply bad_add; [apply mul_some; [apply apa_some; auto|exact HS]| |left; apply bad_mul; [apply apa_some; auto|exact HS|left; exact (apa_bad p q Hp Hq B i j Hi Hj)]].
  destruct Vf as (_ & _ & _ & vQ & _). eapply cell_some; eauto.
Qed.
Lemma x_bad p : p < n -> bad_cell 1 (kf_x f) p 0 -> (forall i, i < n -> cell 1 (kf_x f') i 0 = b_prodv N n (cell n (kf_A f)) (cell 1 (kf_x f)) i 0) ->
  all_bad n 1 (kf_x f').
Proof.
  destruct Vf as (vA & vx & _). intros Hp B H i j Hi Hj. assert (j = 0) by lia. subst j. unfold bad_cell. rewrite (H i Hi).
  apply bad_dot1; [exact Hn| | |exists p; split; [exact Hp|right; exact B]]; intros k Hk; eapply cell_some; eauto.
Qed.
End Predict.

(** ** control *)
Lemma control_empty n (k k' : control T) (f f' : kalman T) : control_ c N n 0 k f = Ok (k', f') -> kf_x f' = kf_x f /\ kf_P f' = kf_P f.
Proof. unfold control_, apply_control. cbn. intros E. injection E as <- <-. split; reflexivity. Qed.
Lemma control_x n m (k k' : control T) (f f' : kalman T) i : 1 <= n -> kf_valid c n f -> ct_valid c n m k -> control_ c N n m k f = Ok (k', f') ->
  i < n -> bad_cell 1 (kf_x f) i 0 -> bad_cell 1 (kf_x f') i 0.
Proof.
  intros Hn Vf Vk E Hi B. destruct m as [|m]; [destruct (control_empty _ _ _ _ _ E) as [-> _]; exact B|].
  destruct (control_bits c N n (S m) k k' f f' Hn ltac:(lia) Vf Vk E) as [H _]. destruct Vf as (_ & vx & _), Vk as (vB & vu & _).
  unfold bad_cell. rewrite (H i Hi). apply bad_add; [eapply cell_some; eauto|eapply prodv_some; eauto; lia|left; exact B].
Qed.
Lemma control_P n m (k k' : control T) (f f' : kalman T) i j : 1 <= n -> kf_valid c n f -> ct_valid c n m k -> control_ c N n m k f = Ok (k', f') ->
  i < n -> j < n -> bad_cell n (kf_P f) i j -> bad_cell n (kf_P f') i j.
Proof.
  intros Hn Vf Vk E Hi Hj B. destruct m as [|m]; [destruct (control_empty _ _ _ _ _ E) as [_ ->]; exact B|].
  destruct (control_bits c N n (S m) k k' f f' Hn ltac:(lia) Vf Vk E) as [_ H]. destruct Vf as (_ & _ & vP & _), Vk as (vB & vu & vQ & _).
  unfold bad_cell. rewrite (H i j Hi Hj). apply bad_add; [eapply cell_some; eauto| |left; exact B].
  apply dot_some; intros l Hl; [eapply prod_some; eauto|eapply cell_some; eauto].
Qed.
Lemma control_u n m (k k' : control T) (f f' : kalman T) p : 1 <= n -> kf_valid c n f -> ct_valid c n m k -> control_ c N n m k f = Ok (k', f') ->
  p < m -> bad_cell 1 (ct_u k) p 0 -> all_bad n 1 (kf_x f').
Proof.
  intros Hn Vf Vk E Hp B i j Hi Hj. assert (j = 0) by lia. subst j.
  destruct (control_bits c N n m k k' f f' Hn ltac:(lia) Vf Vk E) as [H _]. destruct Vf as (_ & vx & _), Vk as (vB & vu & _).
  unfold bad_cell. rewrite (H i Hi). apply bad_add; [eapply cell_some; eauto|eapply prodv_some; eauto; lia|right].
  apply bad_dot1; [lia| | |exists p; split; [exact Hp|right; exact B]]; intros l Hl; eapply cell_some; eauto.
Qed.

(** ** correction *)
Section Update.
Variables (n m : nat) (o o' : observation T) (f f' : kalman T).
Hypotheses (Hn : 1 <= n) (Hm : 1 <= m) (Vo : ob_valid c n m o) (Vo' : ob_valid c n m o') (Vf : kf_valid c n f).
Hypothesis U : b_update N n m (cell n (ob_H o)) (cell m (ob_R o)) (cell n (kf_P f)) (cell 1 (kf_x f)) (cell 1 (ob_y o'))
    (cell m (ob_S o')) (cell m (ob_Sinv o')) (cell m (ob_K o')) (cell 1 (kf_x f')) (cell n (kf_P f')).

Lemma Ky_some i : i < n -> b_prodv N m (cell m (ob_K o')) (cell 1 (ob_y o')) i 0 <> None.
Proof. destruct Vo' as (_ & _ & _ & vy & _ & vK & _). intros Hi. eapply prodv_some; eauto. Qed.
Lemma upd_x i : i < n -> bad_cell 1 (kf_x f) i 0 -> bad_cell 1 (kf_x f') i 0.
Proof.
  destruct U as (S & _ & _ & _ & _ & H & _). intros Hi B. unfold bad_cell. rewrite (H i Hi). destruct Vf as (_ & vx & _).
  apply bad_add; [eapply cell_some; eauto|apply Ky_some; exact Hi|left; exact B].
Qed.
Lemma upd_P i j : i < n -> j < n -> bad_cell n (kf_P f) i j -> bad_cell n (kf_P f') i j.
Proof.
  destruct U as (S & _ & _ & _ & _ & _ & H). intros Hi Hj B. unfold bad_cell. rewrite (H i j Hi Hj).
  destruct Vf as (_ & _ & vP & _), Vo as (vH & _), Vo' as (_ & _ & _ & _ & _ & vK & _).
  apply bad_sub; [eapply cell_some; eauto| |left; exact B].
  apply dot_some; intros l Hl; [eapply cell_some; eauto|eapply prod_some; eauto].
Qed.
Lemma upd_K i k j : i < n -> k < n -> j < m -> bad_cell n (kf_P f) i k -> bad_cell m (ob_K o') i j.
Proof.
  destruct U as (S & _ & _ & _ & HK & _). intros Hi Hk Hj B. unfold bad_cell. rewrite (HK i j Hi Hj).
  destruct Vf as (_ & _ & vP & _), Vo as (vH & _), Vo' as (_ & _ & _ & _ & _ & _ & vSi & _).
  assert (HS : forall l, l < m -> b_prodt N n (cell n (kf_P f)) (cell n (ob_H o)) i l <> None) by (intros l Hl; eapply prodt_some; eauto).
  apply bad_dot; [exact HS|intros l Hl; eapply cell_some; eauto|]. exists 0. split; [lia|]. left.
  apply bad_dot; [| |exists k; split; [exact Hk|left; exact B]]; intros l Hl; eapply cell_some; eauto.
Qed.
Lemma upd_Px i k : i < n -> k < n -> bad_cell n (kf_P f) i k -> bad_cell 1 (kf_x f') i 0.
Proof.
  intros Hi Hk B. pose proof U as (S & _ & _ & _ & _ & H & _). unfold bad_cell. rewrite (H i Hi). destruct Vf as (_ & vx & _).
  apply bad_add; [eapply cell_some; eauto|apply Ky_some; exact Hi|right].
  destruct Vo' as (_ & _ & _ & vy & _ & vK & _).
  apply bad_dot1; [exact Hm| | |exists 0; split; [lia|left; apply (upd_K i k 0); auto]]; intros l Hl; eapply cell_some; eauto.
Qed.
Lemma upd_y p : p < m -> bad_cell 1 (ob_y o') p 0 -> all_bad n 1 (kf_x f').
Proof.
  intros Hp B i j Hi Hj. assert (j = 0) by lia. subst j. pose proof U as (S & _ & _ & _ & _ & H & _). unfold bad_cell. rewrite (H i Hi). destruct Vf as (_ & vx & _).
  apply bad_add; [eapply cell_some; eauto|apply Ky_some; exact Hi|right].
  destruct Vo' as (_ & _ & _ & vy & _ & vK & _).
  apply bad_dot1; [exact Hm| | |exists p; split; [exact Hp|right; exact B]]; intros l Hl; eapply cell_some; eauto.
Qed.
End Update.

Lemma correct_ok_valid n m (o o' : observation T) (f f' : kalman T) : 1 <= n -> 1 <= m -> ob_valid c n m o -> kf_valid c n f ->
  correct c N n m o f = Ok (o', f') -> ob_valid c n m o'.
Proof. intros Hn Hm Vo Vf E. pose proof (correct_wp c N n m o f Hn Hm Vo Vf) as W. rewrite E in W. apply W. Qed.
Lemma correct_nl_ok_valid n m h (o o' : observation T) (f f' : kalman T) : 1 <= n -> 1 <= m -> closure_ok c N m n h -> ob_valid c n m o -> kf_valid c n f ->
  correct_nonlinear c N n m h o f = Ok (o', f') -> ob_valid c n m o'.
Proof. intros Hn Hm Hh Vo Vf E. pose proof (correct_nonlinear_wp c N n m h o f) as W. rewrite E in W. apply W; auto. Qed.
Lemma closure_out m n h (x y : list T) : closure_ok c N m n h -> valid c n 1 x -> valid c m 1 y -> forall out, h x y = Ok out -> valid c m 1 out.
Proof. intros H Vx Vy out E. pose proof (H x y Vx Vy) as W. rewrite E in W. exact W. Qed.

(** one call, both kinds of correction at once *)
Lemma correct_update n m (o o' : observation T) (f f' : kalman T) : 1 <= n -> 1 <= m -> ob_valid c n m o -> kf_valid c n f ->
  correct c N n m o f = Ok (o', f') -> ob_valid c n m o' /\
  (forall i, i < m -> cell 1 (ob_y o') i 0 = b_sub N (cell 1 (ob_z o) i 0) (b_prodv N n (cell n (ob_H o)) (cell 1 (kf_x f)) i 0)) /\
  b_update N n m (cell n (ob_H o)) (cell m (ob_R o)) (cell n (kf_P f)) (cell 1 (kf_x f)) (cell 1 (ob_y o'))
    (cell m (ob_S o')) (cell m (ob_Sinv o')) (cell m (ob_K o')) (cell 1 (kf_x f')) (cell n (kf_P f')).
Proof.
  intros Hn Hm Vo Vf E. split; [eapply correct_ok_valid; eauto|]. exact (correct_bits' T c N n m o o' f f' Hn Hm Vo Vf E).
Qed.
Lemma correct_nl_update n m h (o o' : observation T) (f f' : kalman T) : 1 <= n -> 1 <= m -> closure_ok c N m n h -> ob_valid c n m o -> kf_valid c n f ->
  correct_nonlinear c N n m h o f = Ok (o', f') -> ob_valid c n m o' /\
  (exists out, valid c m 1 out /\ forall i, i < m -> cell 1 (ob_y o') i 0 = b_sub N (cell 1 (ob_z o) i 0) (cell 1 out i 0)) /\
  b_update N n m (cell n (ob_H o)) (cell m (ob_R o)) (cell n (kf_P f)) (cell 1 (kf_x f)) (cell 1 (ob_y o'))
    (cell m (ob_S o')) (cell m (ob_Sinv o')) (cell m (ob_K o')) (cell 1 (kf_x f')) (cell n (kf_P f')).
Proof.
  intros Hn Hm Hh Vo Vf E. split; [eapply correct_nl_ok_valid; eauto|].
  assert (Hout : forall out, h (kf_x f) (ob_y o) = Ok out -> valid c m 1 out).
  { apply closure_out with n; [exact Hh|apply Vf|]. destruct Vo as (_ & _ & _ & vy & _). exact vy. }
  destruct (correct_nl_bits' T c N n m h o o' f f' Hn Hm Vo Vf Hout E) as [(out & E1 & E2) U].
  split; [exists out; split; [apply Hout, E1|exact E2]|exact U].
Qed.

(** ** C78: bad data *)
Theorem bad_measurement n m (o o' : observation T) (f f' : kalman T) p : 1 <= n -> 1 <= m -> ob_valid c n m o -> kf_valid c n f ->
  correct c N n m o f = Ok (o', f') -> p < m -> bad_cell 1 (ob_z o) p 0 -> all_bad n 1 (kf_x f').
Proof.
  intros Hn Hm Vo Vf E Hp B. destruct (correct_update n m o o' f f' Hn Hm Vo Vf E) as (Vo' & Hy & U).
  eapply upd_y with (p := p); try eassumption. unfold bad_cell. rewrite (Hy p Hp).
  destruct Vo as (vH & vz & _), Vf as (_ & vx & _). apply bad_sub; [eapply cell_some; eauto|eapply prodv_some; eauto|left; exact B].
Qed.
Theorem bad_measurement_nl n m h (o o' : observation T) (f f' : kalman T) p : 1 <= n -> 1 <= m -> closure_ok c N m n h -> ob_valid c n m o -> kf_valid c n f ->
  correct_nonlinear c N n m h o f = Ok (o', f') -> p < m -> bad_cell 1 (ob_z o) p 0 -> all_bad n 1 (kf_x f').
Proof.
  intros Hn Hm Hh Vo Vf E Hp B. destruct (correct_nl_update n m h o o' f f' Hn Hm Hh Vo Vf E) as (Vo' & (out & Vout & Hy) & U).
  eapply upd_y with (p := p); try eassumption. unfold bad_cell. rewrite (Hy p Hp).
  destruct Vo as (vH & vz & _). apply bad_sub; [eapply cell_some; eauto|eapply cell_some; eauto|left; exact B].
Qed.

(** ** histories *)
Variable n : nat.
Lemma step_bad_x (w w' : world T) (o : op T) i : world_ok c n w -> op_safe c N n (ob_dims w) o -> keeps_x o = true -> step c N n w o = Ok w' ->
  i < n -> bad_cell 1 (kf_x (w_kf w)) i 0 -> bad_cell 1 (kf_x (w_kf w')) i 0 /\ (predicts o = true -> all_bad n 1 (kf_x (w_kf w'))).
Proof.
  intros (Hn & (Vf & Vc & Vo) & Hd) Ho Hk E Hi B.
  destruct o as [|lam|h|lam h|p|j|j h|l|l|l|l|p l|p l|p l|j l|j l|j l]; cbn [keeps_x] in Hk; try discriminate Hk; cbn [step] in E; cbn [predicts].
  - destruct (predict c N n (w_kf w)) as [f'|] eqn:F; [|discriminate E]. injection E as <-. cbn [w_kf set_kf].
    destruct (predict_bits c N n _ _ Hn Vf F) as [H _]. assert (A := x_bad n _ f' Hn Vf i Hi B H). split; [apply A; lia|intros _; exact A].
  - destruct (predict_tuned c N n lam (w_kf w)) as [f'|] eqn:F; [|discriminate E]. injection E as <-. cbn [w_kf set_kf].
    destruct (predict_tuned_bits c N n lam _ _ Hn Vf F) as [H _]. assert (A := x_bad n _ f' Hn Vf i Hi B H). split; [apply A; lia|intros _; exact A].
  - split; [|discriminate]. destruct (nth_error (w_ct w) p) as [[m k]|] eqn:K; [|injection E as <-; exact B].
    destruct (control_ c N n m k (w_kf w)) as [[k' f']|] eqn:F; [|discriminate E]. injection E as <-. cbn [w_kf set_kf set_ct].
    pose proof (HistGen.Forall_nth _ _ _ _ Vc K) as Vk; cbn [fst snd] in Vk. eapply control_x; eauto.
  - split; [|discriminate]. destruct (nth_error (w_ob w) j) as [[m k]|] eqn:K; [|injection E as <-; exact B].
    destruct (correct c N n m k (w_kf w)) as [[k' f']|] eqn:F; [|discriminate E]. injection E as <-. cbn [w_kf set_kf set_ob].
    pose proof (HistGen.Forall_nth _ _ _ _ Vo K) as Vk; cbn [fst snd] in Vk. pose proof (HistGen.Forall_nth _ _ _ _ Hd (ob_dims_nth _ _ _ _ K)) as Hm; cbn in Hm.
    destruct (correct_update n m k k' _ f' Hn Hm Vk Vf F) as (Vk' & _ & U). eapply upd_x; eauto.
  - split; [|discriminate]. cbn [op_safe] in Ho. destruct (nth_error (w_ob w) j) as [[m k]|] eqn:K; [|injection E as <-; exact B].
    rewrite (ob_dims_nth _ _ _ _ K) in Ho.
    destruct (correct_nonlinear c N n m h k (w_kf w)) as [[k' f']|] eqn:F; [|discriminate E]. injection E as <-. cbn [w_kf set_kf set_ob].
    pose proof (HistGen.Forall_nth _ _ _ _ Vo K) as Vk; cbn [fst snd] in Vk. pose proof (HistGen.Forall_nth _ _ _ _ Hd (ob_dims_nth _ _ _ _ K)) as Hm; cbn in Hm.
    destruct (correct_nl_update n m h k k' _ f' Hn Hm Ho Vk Vf F) as (Vk' & _ & U). eapply upd_x; eauto.
  - injection E as <-. split; [exact B|discriminate].
  - injection E as <-. split; [exact B|discriminate].
  - injection E as <-. split; [exact B|discriminate].
  - split; [|discriminate]. destruct (nth_error (w_ct w) p) as [[m k]|]; injection E as <-; exact B.
  - split; [|discriminate]. destruct (nth_error (w_ct w) p) as [[m k]|]; injection E as <-; exact B.
  - split; [|discriminate]. destruct (nth_error (w_ct w) p) as [[m k]|]; injection E as <-; exact B.
  - split; [|discriminate]. destruct (nth_error (w_ob w) j) as [[m k]|]; injection E as <-; exact B.
  - split; [|discriminate]. destruct (nth_error (w_ob w) j) as [[m k]|]; injection E as <-; exact B.
  - split; [|discriminate]. destruct (nth_error (w_ob w) j) as [[m k]|]; injection E as <-; exact B.
Qed.

Lemma step_bad_P (w w' : world T) (o : op T) i k : world_ok c n w -> op_safe c N n (ob_dims w) o -> keeps_P o = true -> step c N n w o = Ok w' ->
  i < n -> k < n -> bad_cell n (kf_P (w_kf w)) i k -> bad_cell n (kf_P (w_kf w')) i k /\ (predicts o = true -> all_bad n n (kf_P (w_kf w'))) /\
  (forall j m b, nth_error (w_ob w) j = Some (m, b) -> corrects j o = true -> bad_cell 1 (kf_x (w_kf w')) i 0).
Proof.
  intros (Hn & (Vf & Vc & Vo) & Hd) Ho Hk E Hi Hk' B.
  destruct o as [|lam|h|lam h|p|j|j h|l|l|l|l|p l|p l|p l|j l|j l|j l]; cbn [keeps_P] in Hk; try discriminate Hk; cbn [step op_safe] in E, Ho; cbn [predicts corrects];
  try (split; [|split; [discriminate|discriminate]]).
  - destruct (predict c N n (w_kf w)) as [f'|] eqn:F; [|discriminate E]. injection E as <-. cbn [w_kf set_kf].
    destruct (predict_bits c N n _ _ Hn Vf F) as [_ H]. assert (A := cov_bad n _ f' Vf i k Hi Hk' B H). split; [apply A; lia|split; [intros _; exact A|discriminate]].
  - destruct (predict_tuned c N n lam (w_kf w)) as [f'|] eqn:F; [|discriminate E]. injection E as <-. cbn [w_kf set_kf].
    destruct (predict_tuned_bits c N n lam _ _ Hn Vf F) as [_ (l2 & fac & _ & _ & H)]. assert (A := cov_tuned_bad n _ f' Vf fac i k Hi Hk' B H). split; [apply A; lia|split; [intros _; exact A|discriminate]].
  - destruct (predict_nonlinear c N n h (w_kf w)) as [f'|] eqn:F; [|discriminate E]. injection E as <-. cbn [w_kf set_kf].
    destruct (predict_nl_bits c N n h _ _ Hn Vf (closure_out n n h _ _ Ho (proj1 (proj2 Vf)) ltac:(apply Vf)) F) as [_ H].
    assert (A := cov_bad n _ f' Vf i k Hi Hk' B H). split; [apply A; lia|split; [intros _; exact A|discriminate]].
  - destruct (predict_tuned_nonlinear c N n lam h (w_kf w)) as [f'|] eqn:F; [|discriminate E]. injection E as <-. cbn [w_kf set_kf].
    destruct (predict_tuned_nl_bits c N n lam h _ _ Hn Vf (closure_out n n h _ _ Ho (proj1 (proj2 Vf)) ltac:(apply Vf)) F) as [_ (l2 & fac & _ & _ & H)].
    assert (A := cov_tuned_bad n _ f' Vf fac i k Hi Hk' B H). split; [apply A; lia|split; [intros _; exact A|discriminate]].
  - destruct (nth_error (w_ct w) p) as [[m q]|] eqn:K; [|injection E as <-; exact B].
    destruct (control_ c N n m q (w_kf w)) as [[q' f']|] eqn:F; [|discriminate E]. injection E as <-. cbn [w_kf set_kf set_ct].
    pose proof (HistGen.Forall_nth _ _ _ _ Vc K) as Vk; cbn [fst snd] in Vk. eapply control_P; eauto.
  - destruct (nth_error (w_ob w) j) as [[m q]|] eqn:K; [|injection E as <-; split; [exact B|split; [discriminate|]]; intros j' m b K' J; apply Nat.eqb_eq in J; subst j'; congruence].
    destruct (correct c N n m q (w_kf w)) as [[q' f']|] eqn:F; [|discriminate E]. injection E as <-. cbn [w_kf set_kf set_ob].
    pose proof (HistGen.Forall_nth _ _ _ _ Vo K) as Vk; cbn [fst snd] in Vk. pose proof (HistGen.Forall_nth _ _ _ _ Hd (ob_dims_nth _ _ _ _ K)) as Hm; cbn in Hm.
    destruct (correct_update n m q q' _ f' Hn Hm Vk Vf F) as (Vk' & _ & U). split; [eapply upd_P with (o := q) (o' := q'); eauto|split; [discriminate|]].
    intros ? ? ? ? ?. apply upd_Px with (n := n) (m := m) (o := q) (o' := q') (f := w_kf w) (k := k); assumption.
  - destruct (nth_error (w_ob w) j) as [[m q]|] eqn:K; [|injection E as <-; split; [exact B|split; [discriminate|]]; intros j' m b K' J; apply Nat.eqb_eq in J; subst j'; congruence].
    rewrite (ob_dims_nth _ _ _ _ K) in Ho.
    destruct (correct_nonlinear c N n m h q (w_kf w)) as [[q' f']|] eqn:F; [|discriminate E]. injection E as <-. cbn [w_kf set_kf set_ob].
    pose proof (HistGen.Forall_nth _ _ _ _ Vo K) as Vk; cbn [fst snd] in Vk. pose proof (HistGen.Forall_nth _ _ _ _ Hd (ob_dims_nth _ _ _ _ K)) as Hm; cbn in Hm.
    destruct (correct_nl_update n m h q q' _ f' Hn Hm Ho Vk Vf F) as (Vk' & _ & U). split; [eapply upd_P with (o := q) (o' := q'); eauto|split; [discriminate|]].
    intros ? ? ? ? ?. apply upd_Px with (n := n) (m := m) (o := q) (o' := q') (f := w_kf w) (k := k); assumption.
  - injection E as <-. exact B.
  - injection E as <-. exact B.
  - injection E as <-. exact B.
  - destruct (nth_error (w_ct w) p) as [[m q]|]; injection E as <-; exact B.
  - destruct (nth_error (w_ct w) p) as [[m q]|]; injection E as <-; exact B.
  - destruct (nth_error (w_ct w) p) as [[m q]|]; injection E as <-; exact B.
  - destruct (nth_error (w_ob w) j) as [[m q]|]; injection E as <-; exact B.
  - destruct (nth_error (w_ob w) j) as [[m q]|]; injection E as <-; exact B.
  - destruct (nth_error (w_ob w) j) as [[m q]|]; injection E as <-; exact B.
Qed.

Lemma step_ok (w : world T) o : world_ok c n w -> op_safe c N n (ob_dims w) o ->
  exists w', step c N n w o = Ok w' /\ world_ok c n w' /\ ob_dims w' = ob_dims w.
Proof.
  intros Hw Ho. pose proof (step_wp c N n w o Hw Ho) as W. destruct (step c N n w o) as [w'|p].
  - destruct W as (V & [_ D] & _). exists w'. auto.
  - destruct W as [_ W]. exfalso. apply W, sf_never_panics.
Qed.

Theorem run_bad_x (w : world T) os i : world_ok c n w -> Forall (op_safe c N n (ob_dims w)) os -> forallb keeps_x os = true ->
  i < n -> bad_cell 1 (kf_x (w_kf w)) i 0 ->
  exists w', run c N n w os = Ok w' /\ bad_cell 1 (kf_x (w_kf w')) i 0 /\ (existsb predicts os = true -> all_bad n 1 (kf_x (w_kf w'))).
Proof.
  revert w i. induction os as [|o os IH]; intros w i Hw Hs Hk Hi B; cbn [run].
  - exists w. repeat split; auto. discriminate.
  - inversion Hs as [|? ? H1 H2]; subst. cbn [forallb existsb] in *. apply andb_prop in Hk as [Hk1 Hk2].
    destruct (step_ok w o Hw H1) as (w1 & E & Hw1 & D). rewrite E. cbn [bind].
    destruct (step_bad_x w w1 o i Hw H1 Hk1 E Hi B) as [B1 A1]. rewrite <- D in H2.
    destruct (IH w1 i Hw1 H2 Hk2 Hi B1) as (w2 & E2 & B2 & A2). exists w2. split; [exact E2|]. split; [exact B2|].
    intros HP. apply Bool.orb_prop in HP as [HP|HP]; [|auto]. intros i' j' Hi' Hj'. assert (j' = 0) by lia. subst j'.
    destruct (IH w1 i' Hw1 H2 Hk2 Hi' (A1 HP i' 0 Hi' Hj')) as (w3 & E3 & B3 & _). rewrite E2 in E3. injection E3 as <-. exact B3.
Qed.

Theorem run_bad_P (w : world T) os i k : world_ok c n w -> Forall (op_safe c N n (ob_dims w)) os -> forallb keeps_P os = true ->
  i < n -> k < n -> bad_cell n (kf_P (w_kf w)) i k ->
  exists w', run c N n w os = Ok w' /\ bad_cell n (kf_P (w_kf w')) i k /\ (existsb predicts os = true -> all_bad n n (kf_P (w_kf w'))).
Proof.
  revert w i k. induction os as [|o os IH]; intros w i k Hw Hs Hk Hi Hk' B; cbn [run].
  - exists w. repeat split; auto. discriminate.
  - inversion Hs as [|? ? H1 H2]; subst. cbn [forallb existsb] in *. apply andb_prop in Hk as [Hk1 Hk2].
    destruct (step_ok w o Hw H1) as (w1 & E & Hw1 & D). rewrite E. cbn [bind].
    destruct (step_bad_P w w1 o i k Hw H1 Hk1 E Hi Hk' B) as (B1 & A1 & _). rewrite <- D in H2.
    destruct (IH w1 i k Hw1 H2 Hk2 Hi Hk' B1) as (w2 & E2 & B2 & A2). exists w2. split; [exact E2|]. split; [exact B2|].
    intros HP. apply Bool.orb_prop in HP as [HP|HP]; [|auto]. intros i' j' Hi' Hj'.
    destruct (IH w1 i' j' Hw1 H2 Hk2 Hi' Hj' (A1 HP i' j' Hi' Hj')) as (w3 & E3 & B3 & _). rewrite E2 in E3. injection E3 as <-. exact B3.
Qed.

(** a bad covariance entry in row i reaches component i of the state with the next correction by an existing observation, and stays *)
Theorem run_bad_P_x (w : world T) os1 o os2 i k j : world_ok c n w -> Forall (op_safe c N n (ob_dims w)) (os1 ++ o :: os2) ->
  forallb keeps_P os1 = true -> corrects j o = true -> j < length (w_ob w) -> forallb keeps_x os2 = true ->
  i < n -> k < n -> bad_cell n (kf_P (w_kf w)) i k ->
  exists w', run c N n w (os1 ++ o :: os2) = Ok w' /\ bad_cell 1 (kf_x (w_kf w')) i 0 /\
    (existsb predicts os1 = true \/ existsb predicts os2 = true -> all_bad n 1 (kf_x (w_kf w'))).
Proof.
  revert w i k. induction os1 as [|a os1 IH]; intros w i k Hw Hs Hk Ho Hj Hx Hi Hk' B; cbn [app run].
  - inversion Hs as [|? ? H1 H2]; subst. destruct (step_ok w o Hw H1) as (w1 & E & Hw1 & D). rewrite E. cbn [bind].
    assert (KP : keeps_P o = true) by (destruct o; try discriminate Ho; reflexivity).
    destruct (nth_error (w_ob w) j) as [[m b]|] eqn:K; [|apply nth_error_None in K; lia].
    destruct (step_bad_P w w1 o i k Hw H1 KP E Hi Hk' B) as (_ & _ & B1). specialize (B1 j m b K Ho). rewrite <- D in H2.
    destruct (run_bad_x w1 os2 i Hw1 H2 Hx Hi B1) as (w2 & E2 & B2 & A2). exists w2. split; [exact E2|]. split; [exact B2|].
    intros [HP|HP]; [discriminate HP|auto].
  - inversion Hs as [|? ? H1 H2]; subst. cbn [forallb existsb] in *. apply andb_prop in Hk as [Hk1 Hk2].
    destruct (step_ok w a Hw H1) as (w1 & E & Hw1 & D). rewrite E. cbn [bind].
    destruct (step_bad_P w w1 a i k Hw H1 Hk1 E Hi Hk' B) as (B1 & A1 & _). rewrite <- D in H2.
    assert (L : j < length (w_ob w1)). { rewrite <- (map_length fst). change (j < length (ob_dims w1)). rewrite D. unfold ob_dims. rewrite map_length. exact Hj. }
    destruct (IH w1 i k Hw1 H2 Hk2 Ho L Hx Hi Hk' B1) as (w2 & E2 & B2 & A2). exists w2. split; [exact E2|]. split; [exact B2|].
    intros [HP|HP]; [|auto]. apply Bool.orb_prop in HP as [HP|HP]; [|auto]. intros i' j' Hi' Hj'. assert (j' = 0) by lia. subst j'.
    destruct (IH w1 i' i' Hw1 H2 Hk2 Ho L Hx Hi' Hi' (A1 HP i' i' Hi' Hi')) as (w3 & E3 & B3 & _). rewrite E2 in E3. injection E3 as <-. exact B3.
Qed.

Lemma run_all_bad_x (w : world T) os : world_ok c n w -> Forall (op_safe c N n (ob_dims w)) os -> forallb keeps_x os = true ->
  all_bad n 1 (kf_x (w_kf w)) -> exists w', run c N n w os = Ok w' /\ all_bad n 1 (kf_x (w_kf w')).
Proof.
  intros Hw Hs Hk A. pose proof Hw as [Hn _]. destruct (run_bad_x w os 0 Hw Hs Hk Hn (A 0 0 Hn Nat.lt_0_1)) as (w' & E & _ & _). exists w'. split; [exact E|].
  intros i j Hi Hj. assert (j = 0) by lia. subst j. destruct (run_bad_x w os i Hw Hs Hk Hi (A i 0 Hi Hj)) as (w2 & E2 & B & _).
  rewrite E in E2. injection E2 as <-. exact B.
Qed.
Lemma run_ok (w : world T) os : world_ok c n w -> Forall (op_safe c N n (ob_dims w)) os -> exists w', run c N n w os = Ok w'.
Proof.
  intros Hw Hs. pose proof (run_wp c N n w os Hw Hs) as W. destruct (run c N n w os) as [w'|p]; [eauto|].
  destruct W as [_ W]. exfalso. apply W, sf_never_panics.
Qed.
(** the covariance does not depend on data *)
Lemma run_cov_P (w w2 w' : world T) os os2 : world_ok c n w -> world_cov c n w w2 -> Forall2 op_cov os os2 ->
  Forall (op_safe c N n (ob_dims w)) os -> Forall (op_safe c N n (ob_dims w)) os2 -> run c N n w os = Ok w' ->
  exists w2', run c N n w2 os2 = Ok w2' /\ same_matrix n n (kf_P (w_kf w')) (kf_P (w_kf w2')).
Proof.
  intros Hw HC HO S1 S2 E. pose proof Hw as (Hn & _ & Hd). pose proof (run_cov c N n w w2 os os2 Hn Hd HC HO S1 S2) as R. rewrite E in R.
  assert (Hw2 : world_ok c n w2 /\ ob_dims w2 = ob_dims w).
  { destruct HC as (Hf & Hct & Hob). assert (D : ob_dims w2 = ob_dims w).
    { unfold ob_dims. clear -Hob. induction Hob as [|a b l l' [H _] Hl IH]; cbn; [reflexivity|f_equal; auto]. }
    split; [|exact D]. split; [exact Hn|]. split; [|rewrite D; exact Hd]. split; [apply Hf|]. split.
    - clear -Hct. induction Hct as [|a b l l' (H & _ & V & _) Hl IH]; constructor; auto. rewrite <- H. exact V.
    - clear -Hob. induction Hob as [|a b l l' (H & _ & V & _) Hl IH]; constructor; auto. rewrite <- H. exact V. }
  destruct Hw2 as [Hw2 D]. rewrite <- D in S2. destruct (run_ok w2 os2 Hw2 S2) as (w2' & E2). exists w2'. split; [exact E2|].
  rewrite E2 in R. destruct R as ((_ & _ & _ & HP & _) & _). exact HP.
Qed.

Theorem bad_measurement_run (w : world T) j m b p o os : world_ok c n w -> Forall (op_safe c N n (ob_dims w)) (o :: os) ->
  nth_error (w_ob w) j = Some (m, b) -> p < m -> bad_cell 1 (ob_z b) p 0 -> corrects j o = true -> forallb keeps_x os = true ->
  exists w', run c N n w (o :: os) = Ok w' /\ all_bad n 1 (kf_x (w_kf w')) /\
    forall w2 os2, world_cov c n w w2 -> Forall2 op_cov (o :: os) os2 -> Forall (op_safe c N n (ob_dims w)) os2 ->
      exists w2', run c N n w2 os2 = Ok w2' /\ same_matrix n n (kf_P (w_kf w')) (kf_P (w_kf w2')).
Proof.
  intros Hw Hs K Hp B Ho Hk. pose proof Hw as (Hn & (Vf & Vc & Vo) & Hd). inversion Hs as [|? ? H1 H2]; subst.
  pose proof (HistGen.Forall_nth _ _ _ _ Vo K) as Vk; cbn [fst snd] in Vk. pose proof (HistGen.Forall_nth _ _ _ _ Hd (ob_dims_nth _ _ _ _ K)) as Hm; cbn in Hm.
  destruct (step_ok w o Hw H1) as (w1 & E & Hw1 & D).
  assert (A : all_bad n 1 (kf_x (w_kf w1))).
  { destruct o; try discriminate Ho; cbn [corrects] in Ho; apply Nat.eqb_eq in Ho; subst; cbn [step op_safe] in E, H1; rewrite K in E.
    - destruct (correct c N n m b (w_kf w)) as [[q' f']|] eqn:F; [|discriminate E]. injection E as <-. cbn [w_kf set_kf set_ob]. exact (bad_measurement n m b q' (w_kf w) f' p Hn Hm Vk Vf F Hp B).
    - rewrite (ob_dims_nth _ _ _ _ K) in H1.
      destruct (correct_nonlinear c N n m h b (w_kf w)) as [[q' f']|] eqn:F; [|discriminate E]. injection E as <-. cbn [w_kf set_kf set_ob].
      exact (bad_measurement_nl n m h b q' (w_kf w) f' p Hn Hm H1 Vk Vf F Hp B). }
  rewrite <- D in H2. destruct (run_all_bad_x w1 os Hw1 H2 Hk A) as (w' & E' & A').
  assert (ER : run c N n w (o :: os) = Ok w') by (cbn [run]; rewrite E; exact E').
  exists w'. split; [exact ER|]. split; [exact A'|]. intros w2 os2 HC HO S2. exact (run_cov_P w w2 w' _ os2 Hw HC HO ltac:(assumption) S2 ER).
Qed.
Theorem bad_input_run (w : world T) j m k p os : world_ok c n w -> Forall (op_safe c N n (ob_dims w)) os ->
  nth_error (w_ct w) j = Some (m, k) -> p < m -> bad_cell 1 (ct_u k) p 0 -> forallb keeps_x os = true ->
  exists w', run c N n w (OControl j :: os) = Ok w' /\ all_bad n 1 (kf_x (w_kf w')) /\
    forall w2 os2, world_cov c n w w2 -> Forall2 op_cov (OControl j :: os) os2 -> Forall (op_safe c N n (ob_dims w)) os2 ->
      exists w2', run c N n w2 os2 = Ok w2' /\ same_matrix n n (kf_P (w_kf w')) (kf_P (w_kf w2')).
Proof.
  intros Hw H2 K Hp B Hk. pose proof Hw as (Hn & (Vf & Vc & Vo) & Hd).
  assert (H1 : op_safe c N n (ob_dims w) (OControl j)) by exact I.
  pose proof (HistGen.Forall_nth _ _ _ _ Vc K) as Vk; cbn [fst snd] in Vk.
  destruct (step_ok w _ Hw H1) as (w1 & E & Hw1 & D).
  assert (A : all_bad n 1 (kf_x (w_kf w1))).
  { cbn [step] in E; rewrite K in E.
    destruct (control_ c N n m k (w_kf w)) as [[q' f']|] eqn:F; [|discriminate E]. injection E as <-. cbn [w_kf set_kf set_ct]. eapply control_u; eauto. }
  assert (HS : Forall (op_safe c N n (ob_dims w)) (OControl j :: os)) by (constructor; auto).
  rewrite <- D in H2. destruct (run_all_bad_x w1 os Hw1 H2 Hk A) as (w' & E' & A').
  assert (ER : run c N n w (OControl j :: os) = Ok w') by (cbn [run]; rewrite E; exact E').
  exists w'. split; [exact ER|]. split; [exact A'|]. intros w2 os2 HC HO S2. exact (run_cov_P w w2 w' _ os2 Hw HC HO ltac:(assumption) S2 ER).
Qed.
End Poison.
