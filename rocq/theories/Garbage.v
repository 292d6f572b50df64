(** * A correction that has no solution: what becomes of the filter *)
From Coq Require Import Lia.
From Verif Require Import Spec SpecBits Matrix Filter Extended SpecFilter SpecGen FloatNum SpecFloats SpecPoison.
From Verif Require Import Wp Kernels FilterGen FilterTwo FloatGen FloatWit BitsProof HistGen Poison.

Section Lost.
Variables (c : cfg) (prec emax : Z) (sz : bool).
Notation T := spec_float.
Notation N := (sf_num prec emax sz).

Lemma bad_osum lo cnt (g : nat -> option T) : (forall k, k < cnt -> g (lo + k) <> None) -> (exists k, k < cnt /\ bad (g (lo + k))) -> bad (osum N lo cnt g).
Proof.
  induction cnt as [|cnt IH]; intros Hg (k & Hk & B); [lia|]. cbn [osum].
  assert (Hs : forall n, n <= cnt -> osum N lo n g <> None).
  { intros n. induction n as [|n IHn]; intros Hn; [discriminate|]. cbn [osum]. specialize (IHn ltac:(lia)). specialize (Hg n ltac:(lia)).
    destruct (osum N lo n g); [|congruence]. cbn [obind]. destruct (g (lo + n)); [|congruence]. discriminate. }
  specialize (Hs cnt ltac:(lia)). change (bad (b_add N (osum N lo cnt g) (g (lo + cnt)))).
  apply bad_add; [exact Hs|apply Hg; lia|]. destruct (Nat.eq_dec k cnt) as [->|]; [right; exact B|left]. apply IH; [intros; apply Hg; lia|]. exists k. split; [lia|exact B].
Qed.
Lemma some_osum lo cnt (g : nat -> option T) : (forall k, k < cnt -> g (lo + k) <> None) -> osum N lo cnt g <> None.
Proof.
  induction cnt as [|cnt IH]; intros Hg; [discriminate|]. cbn [osum]. assert (osum N lo cnt g <> None) by (apply IH; intros; apply Hg; lia). specialize (Hg cnt ltac:(lia)).
  destruct (osum N lo cnt g); [|congruence]. destruct (g (lo + cnt)); [|congruence]. discriminate.
Qed.
Lemma neg_eq (a b : option T) : obind a (fun a => obind (o_neg N a) (fun a' => obind b (fun b => o_mul N a' b))) = b_mul N (obind a (o_neg N)) b.
Proof. destruct a; reflexivity. Qed.

(** a pivot whose reciprocal is not a finite number spoils its row and column of the inverse *)
Lemma inverse_bad m (L X : nat -> nat -> option T) i r : (forall p q, p < m -> q < m -> L p q <> None) -> (forall p q, p < m -> q < m -> X p q <> None) ->
  b_inverse N m L X -> i < m -> obind (L i i) (o_recip N) = Some r -> sf_finite r = false -> forall j, j < m -> bad (X i j).
Proof.
  intros HL HX (Y & H) Hi Er Br.
  assert (HY : forall p q, p <= q < m -> Y p q <> None).
  { intros p q. induction q as [q IH] using lt_wf_ind. intros Hq. destruct (H q ltac:(lia)) as (rq & _ & G). destruct (G p ltac:(lia)) as (-> & _).
    apply mul_some; [|discriminate]. apply add_some; [discriminate|]. apply some_osum. intros k Hk. rewrite neg_eq. apply mul_some.
    - specialize (HL q (p + k) ltac:(lia) ltac:(lia)). destruct (L q (p + k)); [discriminate|congruence].
    - apply IH; lia. }
  assert (Hr : bad (Some r)) by (exists r; auto).
  destruct (H i Hi) as (r' & Er' & G). rewrite Er in Er'. injection Er' as <-.
  assert (NS : forall q p, q < m -> p < m -> b_negsum N (q + 1) (m - (q + 1)) (fun k => L k q) (fun k => X p k) <> None).
  { intros q p Hq Hp. apply some_osum. intros k Hk. rewrite neg_eq. apply mul_some; [|apply HX; lia]. specialize (HL (q + 1 + k) q ltac:(lia) ltac:(lia)). destruct (L (q + 1 + k) q); [discriminate|congruence]. }
  assert (BY : bad (Y i i)).
  { destruct (G i (le_n i)) as (-> & _). apply bad_mul; [|discriminate|right; exact Hr]. apply add_some; [discriminate|]. rewrite Nat.sub_diag. discriminate. }
  intros j Hj. destruct (Nat.le_gt_cases j i) as [Hle|Hgt].
  - destruct (G j Hle) as (_ & -> & _). apply bad_mul; [|discriminate|right; exact Hr]. apply add_some; [apply HY; lia|apply NS; lia].
  - destruct (H j Hj) as (rj & _ & Gj). destruct (Gj i ltac:(lia)) as (E1 & E2 & E3). rewrite E3, E2.
    assert (BYj : bad (Y i j)).
    { rewrite E1. assert (NS' : forall k, k < j - i -> obind (L j (i + k)) (fun a => obind (o_neg N a) (fun a' => obind (Y i (i + k)) (fun b => o_mul N a' b))) <> None).
      { intros k Hk. rewrite neg_eq. apply mul_some; [|apply HY; lia]. specialize (HL j (i + k) ltac:(lia) ltac:(lia)). destruct (L j (i + k)); [discriminate|congruence]. }
      apply bad_mul; [|discriminate|left].
      - apply add_some; [discriminate|apply some_osum, NS'].
      - apply bad_add; [discriminate|apply some_osum, NS'|right]. apply bad_osum; [exact NS'|]. exists 0. split; [lia|]. rewrite neg_eq. rewrite Nat.add_0_r.
        apply bad_mul; [|apply HY; lia|right; exact BY]. specialize (HL j i ltac:(lia) ltac:(lia)). destruct (L j i); [discriminate|congruence]. }
    apply bad_mul; [|discriminate|left]; [apply add_some; [apply HY; lia|apply NS; lia]|]. apply bad_add; [apply HY; lia|apply NS; lia|left; exact BYj].
Qed.

Section Update.
Variables (n m : nat) (o o' : observation T) (f f' : kalman T).
Hypotheses (Hn : 1 <= n) (Hm : 1 <= m) (Vo : ob_valid c n m o) (Vo' : ob_valid c n m o') (Vf : kf_valid c n f).
Hypothesis U : b_update N n m (cell n (ob_H o)) (cell m (ob_R o)) (cell n (kf_P f)) (cell 1 (kf_x f)) (cell 1 (ob_y o'))
    (cell m (ob_S o')) (cell m (ob_Sinv o')) (cell m (ob_K o')) (cell 1 (kf_x f')) (cell n (kf_P f')).

Lemma update_lost i r : i < m -> obind (cell m (ob_S o') i i) (o_recip N) = Some r -> sf_finite r = false -> all_bad n 1 (kf_x f') /\ all_bad n n (kf_P f').
Proof.
  intros Hi Er Br. destruct U as (S & HS & HF & HI & HK & HX & HP).
  destruct Vo as (vH & _), Vo' as (_ & _ & _ & vy & vS & vK & vSi & _), Vf as (_ & vx & vP & _).
  assert (BI : forall j, j < m -> bad (cell m (ob_Sinv o') i j)).
  { apply (inverse_bad m (cell m (ob_S o')) (cell m (ob_Sinv o')) i r); auto; intros p q Hp Hq; eapply cell_some; eauto. }
  assert (BK : forall p j, p < n -> j < m -> bad (cell m (ob_K o') p j)).
  { intros p j Hp Hj. rewrite (HK p j Hp Hj). apply bad_dot; [intros k Hk; eapply prodt_some; eauto|intros k Hk; eapply cell_some; eauto|]. exists i. split; [exact Hi|right; apply BI; exact Hj]. }
  split.
  - intros p j Hp Hj. assert (j = 0) by lia. subst j. unfold bad_cell. rewrite (HX p Hp). apply bad_add; [eapply cell_some; eauto|eapply prodv_some; eauto|right].
    apply bad_dot1; [exact Hm|intros k Hk; eapply cell_some; eauto|intros k Hk; eapply cell_some; eauto|]. exists 0. split; [lia|left; apply BK; lia].
  - intros p j Hp Hj. unfold bad_cell. rewrite (HP p j Hp Hj). apply bad_sub; [eapply cell_some; eauto| |right].
    + apply dot_some; intros k Hk; [eapply cell_some; eauto|eapply prod_some; eauto].
    + apply bad_dot; [intros k Hk; eapply cell_some; eauto|intros k Hk; eapply prod_some; eauto|]. exists 0. split; [lia|left; apply BK; lia].
Qed.

(** the first innovation variance is not a positive number *)
Lemma update_first s : b_add N (b_prodt N n (b_prod N n (cell n (ob_H o)) (cell n (kf_P f))) (cell n (ob_H o)) 0 0) (cell m (ob_R o) 0 0) = Some s -> sf_pos s = false ->
  all_bad n 1 (kf_x f') /\ all_bad n n (kf_P f').
Proof.
  intros Es Ps.
  assert (E : exists r, obind (cell m (ob_S o') 0 0) (o_recip N) = Some r /\ sf_finite r = false).
  { destruct U as (S & HS & HF & HI & _). rewrite <- (HS 0 0 Hm Hm) in Es.
    assert (C0 : b_column N m S (cell m (ob_S o')) 0 -> exists r, obind (cell m (ob_S o') 0 0) (o_recip N) = Some r /\ sf_finite r = false).
    { intros (s' & l & d & H1 & H2 & H3 & H4 & H5 & _). rewrite Es in H1. cbn in H1. injection H1 as <-. rewrite H5. cbn [obind]. exists d. split; [exact H4|].
      injection H3 as <-. injection H4 as <-. destruct s as [| | |[|] ? ?]; try reflexivity; try discriminate H2; try discriminate Ps. destruct s; [discriminate H2|discriminate Ps]. }
    destruct HF as [[HF _]|HF]; [apply C0, HF; exact Hm|]. destruct HF as (i & s' & d & Hi & HC & H1 & H2 & H3 & H4 & H5 & _).
    destruct i as [|i]; [|apply C0, HC; lia]. rewrite Es in H1. cbn in H1. injection H1 as <-. injection H3 as <-. rewrite H4. cbn. eexists. split; [reflexivity|].
    destruct s; try reflexivity; discriminate H2. }
  destruct E as (r & E & F). exact (update_lost 0 r Hm E F).
Qed.
End Update.

Theorem correct_lost n m (o o' : observation T) (f f' : kalman T) i r : 1 <= n -> 1 <= m -> ob_valid c n m o -> kf_valid c n f ->
  correct c N n m o f = Ok (o', f') -> i < m -> obind (cell m (ob_S o') i i) (o_recip N) = Some r -> sf_finite r = false ->
  all_bad n 1 (kf_x f') /\ all_bad n n (kf_P f').
Proof. intros Hn Hm Vo Vf E. destruct (correct_update c prec emax sz n m o o' f f' Hn Hm Vo Vf E) as (Vo' & _ & U). exact (update_lost n m o o' f f' Hn Hm Vo Vo' Vf U i r). Qed.
Theorem correct_nl_lost n m h (o o' : observation T) (f f' : kalman T) i r : 1 <= n -> 1 <= m -> closure_ok c N m n h -> ob_valid c n m o -> kf_valid c n f ->
  correct_nonlinear c N n m h o f = Ok (o', f') -> i < m -> obind (cell m (ob_S o') i i) (o_recip N) = Some r -> sf_finite r = false ->
  all_bad n 1 (kf_x f') /\ all_bad n n (kf_P f').
Proof. intros Hn Hm Hh Vo Vf E. destruct (correct_nl_update c prec emax sz n m h o o' f f' Hn Hm Hh Vo Vf E) as (Vo' & _ & U). exact (update_lost n m o o' f f' Hn Hm Vo Vo' Vf U i r). Qed.

Theorem correct_first n m (o : observation T) (f : kalman T) s : 1 <= n -> 1 <= m -> ob_valid c n m o -> kf_valid c n f ->
  b_add N (b_prodt N n (b_prod N n (cell n (ob_H o)) (cell n (kf_P f))) (cell n (ob_H o)) 0 0) (cell m (ob_R o) 0 0) = Some s -> sf_pos s = false ->
  exists o' f', correct c N n m o f = Ok (o', f') /\ all_bad n 1 (kf_x f') /\ all_bad n n (kf_P f').
Proof.
  intros Hn Hm Vo Vf Es Ps. pose proof (correct_wp c N n m o f Hn Hm Vo Vf) as W. destruct (correct c N n m o f) as [[o' f']|e] eqn:E.
  - exists o', f'. split; [reflexivity|]. destruct (correct_update c prec emax sz n m o o' f f' Hn Hm Vo Vf E) as (Vo' & _ & U). exact (update_first n m o o' f f' Hn Hm Vo Vo' Vf U s Es Ps).
  - exfalso. cbn [wp] in W. destruct W as [_ W]. exact (W (sf_never_panics prec emax sz)).
Qed.
Theorem correct_nl_first n m h (o : observation T) (f : kalman T) s : 1 <= n -> 1 <= m -> closure_ok c N m n h -> ob_valid c n m o -> kf_valid c n f ->
  b_add N (b_prodt N n (b_prod N n (cell n (ob_H o)) (cell n (kf_P f))) (cell n (ob_H o)) 0 0) (cell m (ob_R o) 0 0) = Some s -> sf_pos s = false ->
  exists o' f', correct_nonlinear c N n m h o f = Ok (o', f') /\ all_bad n 1 (kf_x f') /\ all_bad n n (kf_P f').
Proof.
  intros Hn Hm Hh Vo Vf Es Ps. pose proof (correct_nonlinear_wp c N n m h o f Hn Hm) as W. specialize (W Vo Vf Hh). destruct (correct_nonlinear c N n m h o f) as [[o' f']|e] eqn:E.
  - exists o', f'. split; [reflexivity|]. destruct (correct_nl_update c prec emax sz n m h o o' f f' Hn Hm Hh Vo Vf E) as (Vo' & _ & U). exact (update_first n m o o' f f' Hn Hm Vo Vo' Vf U s Es Ps).
  - exfalso. cbn [wp] in W. destruct W as [_ W]. exact (W (sf_never_panics prec emax sz)).
Qed.
End Lost.

(** ** a refused second pivot: the update is finite, and wrong *)
Section Wit.
Variables (c : cfg) (sz : bool).
Hypothesis Hc : 255 <= usize_max c.
Notation z0 := (S754_zero false).
Definition kf_g (one p : spec_float) : kalman spec_float := mk_kalman [one] [z0] [p] [z0] [z0] [z0].
Definition ob_g (one r : spec_float) : observation spec_float :=
  mk_obs [one; one] [one; one] [r; z0; z0; r] [z0; z0] [z0; z0; z0; z0] [z0; z0] [z0; z0; z0; z0] [z0; z0] [z0; z0] [z0].
Lemma kf_g_valid one p : kf_valid c 1 (kf_g one p).
Proof. red. vt Hc. Qed.
Lemma ob_g_valid one r : ob_valid c 1 2 (ob_g one r).
Proof. red. vt Hc. Qed.

Lemma garbage32 : exists o f o' f', kf_valid c 1 f /\ ob_valid c 1 2 o /\
  kf_x f = [z0] /\ kf_P f = [f32 193 0] /\ ob_H o = [f32 1 0; f32 1 0] /\ ob_R o = [f32 1 (-17); z0; z0; f32 1 (-17)] /\ ob_z o = [f32 1 0; f32 1 0] /\
  correct c (f32_num sz) 1 2 o f = Ok (o', f') /\ kf_x f' = [f32 (-1) 24] /\ exists p, kf_P f' = [p] /\ sf_finite p = true /\ SFltb (f32 3 30) p = true.
Proof.
  assert (E : exists o' f', correct tiny (f32_num sz) 1 2 (ob_g (f32 1 0) (f32 1 (-17))) (kf_g (f32 1 0) (f32 193 0)) = Ok (o', f') /\
    kf_x f' = [f32 (-1) 24] /\ exists p, kf_P f' = [p] /\ sf_finite p = true /\ SFltb (f32 3 30) p = true).
  { destruct sz; vm_compute; do 2 eexists; repeat split; eexists; repeat split. }
  destruct E as (o' & f' & E & H1 & H2). apply (correct_tiny c Hc) in E.
  exists (ob_g (f32 1 0) (f32 1 (-17))), (kf_g (f32 1 0) (f32 193 0)), o', f'. split; [apply kf_g_valid|]. split; [apply ob_g_valid|]. repeat (split; [reflexivity|]).
  split; [exact E|]. split; [exact H1|exact H2].
Qed.
Lemma garbage64 : exists o f o' f', kf_valid c 1 f /\ ob_valid c 1 2 o /\
  kf_x f = [z0] /\ kf_P f = [f64 186 0] /\ ob_H o = [f64 1 0; f64 1 0] /\ ob_R o = [f64 1 (-46); z0; z0; f64 1 (-46)] /\ ob_z o = [f64 1 0; f64 1 0] /\
  correct c (f64_num sz) 1 2 o f = Ok (o', f') /\ kf_x f' = [f64 (-1) 54] /\ exists p, kf_P f' = [p] /\ sf_finite p = true /\ SFltb (f64 1 61) p = true.
Proof.
  assert (E : exists o' f', correct tiny (f64_num sz) 1 2 (ob_g (f64 1 0) (f64 1 (-46))) (kf_g (f64 1 0) (f64 186 0)) = Ok (o', f') /\
    kf_x f' = [f64 (-1) 54] /\ exists p, kf_P f' = [p] /\ sf_finite p = true /\ SFltb (f64 1 61) p = true).
  { destruct sz; vm_compute; do 2 eexists; repeat split; eexists; repeat split. }
  destruct E as (o' & f' & E & H1 & H2). apply (correct_tiny c Hc) in E.
  exists (ob_g (f64 1 0) (f64 1 (-46))), (kf_g (f64 1 0) (f64 186 0)), o', f'. split; [apply kf_g_valid|]. split; [apply ob_g_valid|]. repeat (split; [reflexivity|]).
  split; [exact E|]. split; [exact H1|exact H2].
Qed.

(** two components, the first with a negative variance, the second fine *)
Lemma first_example : let f := kf_g (f32 1 0) (f32 1 0) in
  let o := mk_obs [f32 1 0; f32 1 0] [f32 1 0; f32 1 0] [f32 (-2) 0; z0; z0; f32 1 0] [z0; z0] [z0; z0; z0; z0] [z0; z0] [z0; z0; z0; z0] [z0; z0] [z0; z0] [z0] in
  kf_valid c 1 f /\ ob_valid c 1 2 o /\
  exists s, b_add (f32_num sz) (b_prodt (f32_num sz) 1 (b_prod (f32_num sz) 1 (cell 1 (ob_H o)) (cell 1 (kf_P f))) (cell 1 (ob_H o)) 0 0) (cell 2 (ob_R o) 0 0) = Some s /\ sf_pos s = false.
Proof.
  cbv zeta. split; [apply kf_g_valid|]. split; [red; vt Hc|]. eexists. split; [vm_compute; reflexivity|reflexivity].
Qed.
(** two equal noiseless sensors: the second pivot is zero, its reciprocal infinite *)
Lemma pivot_example : let f := kf_g (f32 1 0) (f32 4 0) in let o := ob_g (f32 1 0) z0 in
  kf_valid c 1 f /\ ob_valid c 1 2 o /\ exists o' f' r, correct c (f32_num sz) 1 2 o f = Ok (o', f') /\
    obind (cell 2 (ob_S o') 1 1) (o_recip (f32_num sz)) = Some r /\ sf_finite r = false.
Proof.
  cbv zeta. split; [apply kf_g_valid|]. split; [apply ob_g_valid|].
  assert (E : exists o' f' r, correct tiny (f32_num sz) 1 2 (ob_g (f32 1 0) z0) (kf_g (f32 1 0) (f32 4 0)) = Ok (o', f') /\
    obind (cell 2 (ob_S o') 1 1) (o_recip (f32_num sz)) = Some r /\ sf_finite r = false).
  { destruct sz; do 3 eexists; (split; [vm_compute; reflexivity|]); split; vm_compute; reflexivity. }
  destruct E as (o' & f' & r & E & H1 & H2). apply (correct_tiny c Hc) in E. eauto 6.
Qed.
End Wit.
