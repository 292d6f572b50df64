(** * Histories for any element type: panics, frames, scratch independence, linear closures *)
From Verif Require Import Spec Matrix Filter Extended SpecFilter History SpecGen Wp Kernels Access Chol Inv FilterGen FilterTwo.

Section Put.
Context {T : Type} (c : cfg).

Lemma nth_error_firstn_lt k (l : list T) p : p < k -> nth_error (firstn k l) p = nth_error l p.
Proof.
  revert l p. induction k as [|k IH]; intros l p H; [lia|].
  destruct l as [|a l]; [reflexivity|]. destruct p as [|p]; [reflexivity|]. cbn. apply IH. lia.
Qed.
Lemma nth_error_skipn_add k (l : list T) p : nth_error (skipn k l) p = nth_error l (k + p).
Proof.
  revert l. induction k as [|k IH]; intros l; [reflexivity|]. destruct l as [|a l]; cbn; [destruct p; reflexivity|apply IH].
Qed.
Lemma put_length (old new : list T) : length (put old new) = length old.
Proof. unfold put. rewrite app_length, firstn_length, skipn_length. lia. Qed.
Lemma nth_put (old new : list T) p : p < length old -> nth_error (put old new) p =
  if p <? length new then nth_error new p else nth_error old p.
Proof.
  intros H. unfold put. destruct (Nat.ltb_spec p (length new)) as [H'|H'].
  - rewrite nth_error_app1 by (rewrite firstn_length; lia). apply nth_error_firstn_lt; lia.
  - rewrite nth_error_app2 by (rewrite firstn_length; lia). rewrite firstn_length.
    rewrite nth_error_skipn_add. f_equal. lia.
Qed.
Lemma put_valid R C (old new : list T) : valid c R C old -> valid c R C (put old new).
Proof. intros V. eapply valid_length; [exact V|apply put_length]. Qed.
Lemma put_same R C (o1 o2 new : list T) : valid c R C o1 -> valid c R C o2 -> same_matrix R C o1 o2 ->
  same_matrix R C (put o1 new) (put o2 new).
Proof.
  intros [V1 _] [V2 _] H p Hp. rewrite !nth_put by lia. destruct (p <? length new); auto.
Qed.

(** ** lists of objects *)
Lemma Forall_upd {A} (P : A -> Prop) l i v : Forall P l -> P v -> Forall P (upd l i v).
Proof. intros H Hv. revert i. induction H as [|a l Ha Hl IH]; intros [|i]; cbn; auto. Qed.
Lemma Forall_nth {A} (P : A -> Prop) l i v : Forall P l -> nth_error l i = Some v -> P v.
Proof. intros H E. apply nth_error_In in E. rewrite Forall_forall in H. auto. Qed.
Lemma Forall2_upd {A B} (P : A -> B -> Prop) l l' i v v' : Forall2 P l l' -> P v v' -> Forall2 P (upd l i v) (upd l' i v').
Proof. intros H Hv. revert i. induction H as [|a b l l' Ha Hl IH]; intros [|i]; cbn; auto. Qed.
Lemma Forall2_upd_l {A} (P : A -> A -> Prop) l i v v' : Forall2 P l l -> nth_error l i = Some v -> P v v' -> Forall2 P l (upd l i v').
Proof.
  intros H. assert (HP : Forall (fun a => P a a) l).
  { clear -H. remember l as l' in H at 2. revert Heql'. induction H; intros E; [auto|]. injection E as <- E2. auto. }
  clear H. revert i. induction HP as [|a l Ha Hl IH]; intros [|i] E Hv; cbn in *; try discriminate.
  - injection E as ->. constructor; auto. clear -Hl. induction Hl; auto.
  - constructor; auto.
Qed.
Lemma Forall2_nth {A B} (P : A -> B -> Prop) l l' i : Forall2 P l l' ->
  match nth_error l i, nth_error l' i with Some v, Some v' => P v v' | None, None => True | _, _ => False end.
Proof. intros H. revert i. induction H as [|a b l l' Ha Hl IH]; intros [|i]; cbn; auto. apply IH. Qed.
Lemma Forall2_refl {A} (P : A -> A -> Prop) l : (forall a, P a a) -> Forall2 P l l.
Proof. intros H. induction l; auto. Qed.
Lemma map_upd {A B} (g : A -> B) l i v v' : nth_error l i = Some v -> g v' = g v -> map g (upd l i v') = map g l.
Proof. revert i. induction l as [|a l IH]; intros [|i] E H; cbn in *; try discriminate; [injection E as ->; f_equal; auto|f_equal; eauto]. Qed.
End Put.

Section One.
Context {T : Type} (c : cfg) (N : num T) (n : nat).
Notation NP := (arith_only N).

Lemma model_refl (w : world T) : world_same_model n w w.
Proof.
  split; [split; auto|split; [split; apply st_refl|]]. split; apply Forall2_refl; intros; (split; [auto|]); repeat split.
Qed.

Definition dims_kept (w w' : world T) : Prop := ct_dims w' = ct_dims w /\ ob_dims w' = ob_dims w.

Ltac fin := repeat match goal with |- _ /\ _ => split end; auto using st_refl.
Ltac two_refl := apply Forall2_refl; intros; (split; [reflexivity|repeat split]).

Lemma set_kf_ok (w : world T) (f : kalman T) : world_ok c n w -> kf_valid c n f -> world_ok c n (set_kf w f).
Proof. intros (H1 & (H2 & H3 & H4) & H5) V. split; [auto|]. split; [|auto]. split; auto. Qed.
Lemma set_ct_ok (w : world T) i m (k k' : control T) : world_ok c n w -> nth_error (w_ct w) i = Some (m, k) -> ct_valid c n m k' ->
  world_ok c n (set_ct w i (m, k')) /\ dims_kept w (set_ct w i (m, k')).
Proof.
  intros (H1 & (H2 & H3 & H4) & H5) E V. split.
  - split; [auto|]. split; [|auto]. split; [auto|]. split; [|auto]. apply Forall_upd; auto.
  - split; [|reflexivity]. unfold ct_dims; cbn. eapply map_upd; [exact E|reflexivity].
Qed.
Lemma set_ob_ok (w : world T) j m (b b' : observation T) : world_ok c n w -> nth_error (w_ob w) j = Some (m, b) -> ob_valid c n m b' ->
  world_ok c n (set_ob w j (m, b')) /\ dims_kept w (set_ob w j (m, b')).
Proof.
  intros (H1 & (H2 & H3 & H4) & H5) E V.
  assert (D : ob_dims (set_ob w j (m, b')) = ob_dims w) by (unfold ob_dims; cbn; eapply map_upd; [exact E|reflexivity]).
  split.
  - split; [auto|]. split; [|rewrite D; auto]. split; [auto|]. split; [auto|]. apply Forall_upd; auto.
  - split; [reflexivity|auto].
Qed.
Lemma ob_dims_nth (w : world T) j m b : nth_error (w_ob w) j = Some (m, b) -> nth_error (ob_dims w) j = Some m.
Proof. intros E. unfold ob_dims. rewrite nth_error_map, E. reflexivity. Qed.
Lemma ct_dims_nth (w : world T) j m b : nth_error (w_ct w) j = Some (m, b) -> nth_error (ct_dims w) j = Some m.
Proof. intros E. unfold ct_dims. rewrite nth_error_map, E. reflexivity. Qed.

Lemma step_wp (w : world T) o : world_ok c n w -> op_safe c N n (ob_dims w) o ->
  wp (step c N n w o)
    (fun w' => world_ok c n w' /\ dims_kept w w' /\ (is_call o = true -> world_same_model n w w')) NP.
Proof.
  intros Hw Ho. pose proof Hw as (Hn & (Vf & Vc & Vo) & Hd).
  assert (KF : forall m, wp m (fun f' => kf_valid c n f' /\ kf_same_model (w_kf w) f' /\ kf_same_tail n (w_kf w) f') NP ->
    wp (bind m (fun f => Ok (set_kf w f)))
      (fun w' => world_ok c n w' /\ dims_kept w w' /\ (is_call o = true -> world_same_model n w w')) NP).
  { intros m Hm. apply wp_bind. eapply wp_mono; [exact Hm| |auto]. intros f' (V & M & TT). cbn [wp].
    split; [apply set_kf_ok; auto|]. split; [split; reflexivity|]. intros _. split; [exact M|]. split; [exact TT|].
    split; cbn; two_refl. }
  destruct o as [|lam|h|lam h|i|j|j h|l|l|l|l|i l|i l|i l|j l|j l|j l]; cbn [step op_safe is_call] in *.
  - apply KF, predict_wp; auto.
  - apply KF, predict_tuned_wp; auto.
  - apply KF, predict_nonlinear_wp; auto.
  - apply KF, predict_tuned_nonlinear_wp; auto.
  - destruct (nth_error (w_ct w) i) as [[m k]|] eqn:E; [|cbn [wp]; split; [auto|]; split; [split; auto|]; intros; apply model_refl].
    pose proof (Forall_nth _ _ _ _ Vc E) as Vk; cbn [fst snd] in Vk.
    apply wp_bind. eapply wp_mono; [apply control_wp; auto| |auto]. intros [k' f'] (V & M & V' & M' & TT). cbn [wp].
    destruct (set_ct_ok (set_kf w f') i m k k' (set_kf_ok _ _ Hw V') E V) as [H1 H2].
    split; [exact H1|]. split; [exact H2|]. intros _. split; [exact M'|]. split; [exact TT|]. split; cbn.
    + eapply Forall2_upd_l; [two_refl|exact E|split; auto].
    + two_refl.
  - destruct (nth_error (w_ob w) j) as [[m k]|] eqn:E; [|cbn [wp]; split; [auto|]; split; [split; auto|]; intros; apply model_refl].
    pose proof (Forall_nth _ _ _ _ Vo E) as Vk; cbn [fst snd] in Vk.
    pose proof (Forall_nth _ _ _ _ Hd (ob_dims_nth _ _ _ _ E)) as Hm.
    apply wp_bind. eapply wp_mono; [apply correct_wp; auto| |auto]. intros [k' f'] (V & M & V' & M' & TT). cbn [wp].
    destruct (set_ob_ok (set_kf w f') j m k k' (set_kf_ok _ _ Hw V') E V) as [H1 H2].
    split; [exact H1|]. split; [exact H2|]. intros _. split; [exact M'|]. split; [exact TT|]. split; cbn.
    + two_refl.
    + eapply Forall2_upd_l; [two_refl|exact E|split; auto].
  - destruct (nth_error (w_ob w) j) as [[m k]|] eqn:E; [|cbn [wp]; split; [auto|]; split; [split; auto|]; intros; apply model_refl].
    pose proof (Forall_nth _ _ _ _ Vo E) as Vk; cbn [fst snd] in Vk.
    pose proof (Forall_nth _ _ _ _ Hd (ob_dims_nth _ _ _ _ E)) as Hm.
    rewrite (ob_dims_nth _ _ _ _ E) in Ho.
    apply wp_bind. eapply wp_mono; [apply correct_nonlinear_wp; auto| |auto]. intros [k' f'] (V & M & V' & M' & TT). cbn [wp].
    destruct (set_ob_ok (set_kf w f') j m k k' (set_kf_ok _ _ Hw V') E V) as [H1 H2].
    split; [exact H1|]. split; [exact H2|]. intros _. split; [exact M'|]. split; [exact TT|]. split; cbn.
    + two_refl.
    + eapply Forall2_upd_l; [two_refl|exact E|split; auto].
  - cbn [wp]. split; [apply set_kf_ok; auto|split; [split; reflexivity|discriminate]].
    destruct Vf as (vA & vx & vP & vQ & vpx & vtP). unfold kf_valid; cbn. fin. apply put_valid; auto.
  - cbn [wp]. split; [apply set_kf_ok; auto|split; [split; reflexivity|discriminate]].
    destruct Vf as (vA & vx & vP & vQ & vpx & vtP). unfold kf_valid; cbn. fin. apply put_valid; auto.
  - cbn [wp]. split; [apply set_kf_ok; auto|split; [split; reflexivity|discriminate]].
    destruct Vf as (vA & vx & vP & vQ & vpx & vtP). unfold kf_valid; cbn. fin. apply put_valid; auto.
  - cbn [wp]. split; [apply set_kf_ok; auto|split; [split; reflexivity|discriminate]].
    destruct Vf as (vA & vx & vP & vQ & vpx & vtP). unfold kf_valid; cbn. fin. apply put_valid; auto.
  - destruct (nth_error (w_ct w) i) as [[m k]|] eqn:E; [|cbn [wp]; split; [auto|]; split; [split; auto|discriminate]].
    pose proof (Forall_nth _ _ _ _ Vc E) as (vB & vu & vQ & vBQ); cbn [fst snd] in *. cbn [wp].
    edestruct set_ct_ok as [H1 H2]; [exact Hw|exact E| |split; [exact H1|split; [exact H2|discriminate]]].
    unfold ct_valid; cbn. fin. apply put_valid; auto.
  - destruct (nth_error (w_ct w) i) as [[m k]|] eqn:E; [|cbn [wp]; split; [auto|]; split; [split; auto|discriminate]].
    pose proof (Forall_nth _ _ _ _ Vc E) as (vB & vu & vQ & vBQ); cbn [fst snd] in *. cbn [wp].
    edestruct set_ct_ok as [H1 H2]; [exact Hw|exact E| |split; [exact H1|split; [exact H2|discriminate]]].
    unfold ct_valid; cbn. fin. apply put_valid; auto.
  - destruct (nth_error (w_ct w) i) as [[m k]|] eqn:E; [|cbn [wp]; split; [auto|]; split; [split; auto|discriminate]].
    pose proof (Forall_nth _ _ _ _ Vc E) as (vB & vu & vQ & vBQ); cbn [fst snd] in *. cbn [wp].
    edestruct set_ct_ok as [H1 H2]; [exact Hw|exact E| |split; [exact H1|split; [exact H2|discriminate]]].
    unfold ct_valid; cbn. fin. apply put_valid; auto.
  - destruct (nth_error (w_ob w) j) as [[m k]|] eqn:E; [|cbn [wp]; split; [auto|]; split; [split; auto|discriminate]].
    pose proof (Forall_nth _ _ _ _ Vo E) as (vH & vz & vR & vy & vS & vK & vSi & vHP & vPHt & vKHP); cbn [fst snd] in *. cbn [wp].
    edestruct set_ob_ok as [H1 H2]; [exact Hw|exact E| |split; [exact H1|split; [exact H2|discriminate]]].
    unfold ob_valid; cbn. fin. apply put_valid; auto.
  - destruct (nth_error (w_ob w) j) as [[m k]|] eqn:E; [|cbn [wp]; split; [auto|]; split; [split; auto|discriminate]].
    pose proof (Forall_nth _ _ _ _ Vo E) as (vH & vz & vR & vy & vS & vK & vSi & vHP & vPHt & vKHP); cbn [fst snd] in *. cbn [wp].
    edestruct set_ob_ok as [H1 H2]; [exact Hw|exact E| |split; [exact H1|split; [exact H2|discriminate]]].
    unfold ob_valid; cbn. fin. apply put_valid; auto.
  - destruct (nth_error (w_ob w) j) as [[m k]|] eqn:E; [|cbn [wp]; split; [auto|]; split; [split; auto|discriminate]].
    pose proof (Forall_nth _ _ _ _ Vo E) as (vH & vz & vR & vy & vS & vK & vSi & vHP & vPHt & vKHP); cbn [fst snd] in *. cbn [wp].
    edestruct set_ob_ok as [H1 H2]; [exact Hw|exact E| |split; [exact H1|split; [exact H2|discriminate]]].
    unfold ob_valid; cbn. fin. apply put_valid; auto.
Qed.

Lemma Forall2_trans {A} (P : A -> A -> Prop) l1 l2 l3 : (forall a b d, P a b -> P b d -> P a d) ->
  Forall2 P l1 l2 -> Forall2 P l2 l3 -> Forall2 P l1 l3.
Proof.
  intros HP H. revert l3. induction H as [|a b l l' Ha Hl IH]; intros l3 H3; inversion H3; subst; constructor; eauto.
Qed.

Lemma model_trans (w1 w2 w3 : world T) : world_same_model (T := T) n w1 w2 -> world_same_model n w2 w3 -> world_same_model n w1 w3.
Proof.
  intros (A1 & B1 & C1 & D1) (A2 & B2 & C2 & D2).
  destruct (frame_trans n _ _ _ (conj A1 B1) (conj A2 B2)) as [A B]. split; [exact A|]. split; [exact B|]. split.
  - eapply Forall2_trans; [|exact C1|exact C2]. intros a b d [E1 (?&?&?)] [E2 (?&?&?)]. split; [congruence|]. repeat split; congruence.
  - eapply Forall2_trans; [|exact D1|exact D2]. intros a b d [E1 (?&?&?)] [E2 (?&?&?)]. split; [congruence|]. repeat split; congruence.
Qed.

Lemma run_wp (w : world T) os : world_ok c n w -> Forall (op_safe c N n (ob_dims w)) os ->
  wp (run c N n w os)
    (fun w' => world_ok c n w' /\ dims_kept w w' /\ (forallb is_call os = true -> world_same_model n w w')) NP.
Proof.
  revert w. induction os as [|o os IH]; intros w Hw Hs; cbn [run].
  - cbn [wp]. split; [auto|]. split; [split; auto|]. intros _; apply model_refl.
  - inversion Hs; subst. apply wp_bind. eapply wp_mono; [apply step_wp; auto| |auto].
    intros w1 (H1' & [D1 D2] & M1). eapply wp_mono; [apply IH; [auto|rewrite D2; auto]| |auto].
    intros w2 (H2' & [D3 D4] & M2). split; [auto|]. split; [split; congruence|]. cbn [forallb].
    intros HB. apply andb_prop in HB as [HB1 HB2]. eapply model_trans; eauto.
Qed.

End One.
