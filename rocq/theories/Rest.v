(** * A filter that has nothing to do does nothing *)
From Coq Require Import ZArith Lia List Floats.SpecFloat.
From Verif Require Import Prelude Numeric FloatNum FixedNum Matrix Filter Extended History Spec SpecFilter SpecGen SpecBits SpecFloats Wp Kernels FilterGen FilterTwo HistGen BitsProof SpecRest.
Import ListNotations.
Local Open Scope nat_scope.

Section Gen.
Context {T : Type} (c : cfg) (N : num T) (zero harmless : T -> Prop) (same : T -> T -> Prop).
Hypothesis Laws : zero_laws N zero harmless same.
Notation cells := all_cells.

Lemma obind_inv {A B} (o : option A) (f : A -> option B) v : obind o f = Some v -> exists a, o = Some a /\ f a = Some v.
Proof. destruct o; cbn; [eauto|discriminate]. Qed.

Lemma dot1_zero K f g v : (forall k a, k < K -> f k = Some a -> harmless a) -> (forall k b, k < K -> g k = Some b -> zero b) -> dot1 N K f g = Some v -> zero v.
Proof.
  destruct Laws as (Lm & La & _). intros Hf Hg. revert v. induction K as [|[|K] IH]; intros v H; [discriminate| |].
  - cbn [dot1] in H. apply obind_inv in H as (a & Ea & H). apply obind_inv in H as (b & Eb & H). eapply Lm; eauto.
  - change (dot1 N (S (S K)) f g) with (obind (dot1 N (S K) f g) (fun acc => obind (f (S K)) (fun u => obind (g (S K)) (fun v => obind (o_mul N u v) (fun p => o_add N acc p))))) in H.
    apply obind_inv in H as (acc & Eacc & H). apply obind_inv in H as (a & Ea & H). apply obind_inv in H as (b & Eb & H). apply obind_inv in H as (p & Ep & H).
    eapply La; [|eapply Lm; [eapply Hf; [|exact Ea]; lia|eapply Hg; [|exact Eb]; lia|exact Ep]|exact H].
    eapply IH; [| |exact Eacc]; intros k q Hk Eq; [eapply Hf|eapply Hg]; try exact Eq; lia.
Qed.
Lemma prodv_zero R K (A V : list T) i v : i < R -> cells R K harmless A -> cells K 1 zero V -> b_prodv N K (cell K A) (cell 1 V) i 0 = Some v -> zero v.
Proof. intros Hi HA HV. apply dot1_zero; intros k a Hk E; [eapply HA|eapply HV]; eauto; lia. Qed.

(** ** one call *)
Lemma predict_rest n f f' : 1 <= n -> kf_valid c n f -> predict c N n f = Ok f' -> cells n n harmless (kf_A f) -> cells n 1 zero (kf_x f) -> cells n 1 zero (kf_x f').
Proof.
  intros Hn Vf E HA Hx. destruct (predict_bits c N n f f' Hn Vf E) as [H _]. intros i j v Hi Hj Ev. replace j with 0 in Ev by lia. rewrite H in Ev by exact Hi. exact (prodv_zero n n (kf_A f) (kf_x f) i v Hi HA Hx Ev).
Qed.
Lemma predict_tuned_rest n lam f f' : 1 <= n -> kf_valid c n f -> predict_tuned c N n lam f = Ok f' -> cells n n harmless (kf_A f) -> cells n 1 zero (kf_x f) -> cells n 1 zero (kf_x f').
Proof.
  intros Hn Vf E HA Hx. destruct (predict_tuned_bits c N n lam f f' Hn Vf E) as [H _]. intros i j v Hi Hj Ev. replace j with 0 in Ev by lia. rewrite H in Ev by exact Hi. exact (prodv_zero n n (kf_A f) (kf_x f) i v Hi HA Hx Ev).
Qed.
Lemma add_zero n (x x' : list T) (d : nat -> option T) : (forall i, i < n -> cell 1 x' i 0 = b_add N (cell 1 x i 0) (d i)) -> (forall i v, i < n -> d i = Some v -> zero v) ->
  same_vector same n x x' /\ (cells n 1 zero x -> cells n 1 zero x').
Proof.
  destruct Laws as (_ & La & _ & Ls). intros H Hd. split.
  - intros i v v' Hi Ev Ev'. rewrite H, Ev in Ev' by exact Hi. cbn in Ev'. apply obind_inv in Ev' as (b & Eb & Ev'). exact (Ls _ _ _ (Hd i b Hi Eb) Ev').
  - intros Hx i j v Hi Hj Ev. replace j with 0 in Ev by lia. rewrite H in Ev by exact Hi. apply obind_inv in Ev as (a & Ea & Ev). apply obind_inv in Ev as (b & Eb & Ev). exact (La _ _ _ (Hx i 0 a Hi (le_n 1) Ea) (Hd i b Hi Eb) Ev).
Qed.
Lemma control_rest n m k k' f f' : 1 <= n -> kf_valid c n f -> ct_valid c n m k -> control_ c N n m k f = Ok (k', f') -> cells n m harmless (ct_B k) -> cells m 1 zero (ct_u k) ->
  (1 <= m -> same_vector same n (kf_x f) (kf_x f')) /\ (cells n 1 zero (kf_x f) -> cells n 1 zero (kf_x f')).
Proof.
  intros Hn Vf Vk E HB Hu. destruct (Nat.eq_dec m 0) as [->|Hm].
  - unfold control_, apply_control in E. pose proof Vk as (VB & Vu & _). rewrite (is_empty_valid c _ _ _ Vu) in E. cbn in E. injection E as <- <-. cbn. split; [lia|auto].
  - destruct (control_bits c N n m k k' f f' Hn ltac:(lia) Vf Vk E) as [H _]. destruct (add_zero n (kf_x f) (kf_x f') _ H) as [A B]; [|split; auto].
    intros i v Hi Ev. eapply prodv_zero; [exact Hi|exact HB|exact Hu|exact Ev].
Qed.
Lemma correct_x_rest n m (o o' : observation T) f f' : 1 <= n -> 1 <= m -> ob_valid c n m o -> kf_valid c n f -> correct c N n m o f = Ok (o', f') ->
  cells n m harmless (ob_K o') -> cells m 1 zero (ob_y o') -> same_vector same n (kf_x f) (kf_x f') /\ (cells n 1 zero (kf_x f) -> cells n 1 zero (kf_x f')).
Proof.
  intros Hn Hm Vo Vf E HK Hy. destruct (correct_bits c N n m o o' f f' Hn Hm Vo Vf E) as (_ & S & _ & _ & _ & _ & HX & _).
  apply (add_zero n (kf_x f) (kf_x f') _ HX). intros i v Hi Ev. eapply prodv_zero; [exact Hi|exact HK|exact Hy|exact Ev].
Qed.
Lemma correct_nl_x_rest n m h (o o' : observation T) f f' : 1 <= n -> 1 <= m -> ob_valid c n m o -> kf_valid c n f -> closure_ok c N m n h -> correct_nonlinear c N n m h o f = Ok (o', f') ->
  cells n m harmless (ob_K o') -> cells m 1 zero (ob_y o') -> same_vector same n (kf_x f) (kf_x f') /\ (cells n 1 zero (kf_x f) -> cells n 1 zero (kf_x f')).
Proof.
  intros Hn Hm Vo Vf Hh E HK Hy.
  assert (Hv : forall out, h (kf_x f) (ob_y o) = Ok out -> valid c m 1 out).
  { intros out Eo. pose proof Vf as (_ & Vx & _). pose proof Vo as (_ & _ & _ & Vy & _). pose proof (Hh _ _ Vx Vy) as W. rewrite Eo in W. exact W. }
  destruct (correct_nl_bits c N n m h o o' f f' Hn Hm Vo Vf Hv E) as (_ & S & _ & _ & _ & _ & HX & _).
  apply (add_zero n (kf_x f) (kf_x f') _ HX). intros i v Hi Ev. eapply prodv_zero; [exact Hi|exact HK|exact Hy|exact Ev].
Qed.
Lemma correct_y_rest n m (o o' : observation T) f f' : 1 <= n -> 1 <= m -> ob_valid c n m o -> kf_valid c n f -> correct c N n m o f = Ok (o', f') ->
  cells m n harmless (ob_H o) -> cells n 1 zero (kf_x f) -> cells m 1 zero (ob_z o) -> cells m 1 zero (ob_y o').
Proof.
  destruct Laws as (_ & _ & Ld & _).
  intros Hn Hm Vo Vf E HH Hx Hz. destruct (correct_bits c N n m o o' f f' Hn Hm Vo Vf E) as (HY & _).
  intros i j v Hi Hj Ev. replace j with 0 in Ev by lia. rewrite HY in Ev by exact Hi. apply obind_inv in Ev as (a & Ea & Ev). apply obind_inv in Ev as (b & Eb & Ev).
  exact (Ld _ _ _ (Hz i 0 a Hi (le_n 1) Ea) (prodv_zero m n (ob_H o) (kf_x f) i b Hi HH Hx Eb) Ev).
Qed.

(** ** histories *)
Lemma rest_kept n (w w' : world T) : world_same_model n w w' -> at_rest zero harmless n w -> cells n 1 zero (kf_x (w_kf w')) -> at_rest zero harmless n w'.
Proof.
  intros ((EA & EQ) & _ & HC & HO) (Hx & HA & Hc & Ho) Hx'. split; [exact Hx'|]. split; [rewrite EA; exact HA|]. split.
  - intros i m k E. pose proof (HistGen.Forall2_nth _ _ _ i HC) as F. rewrite E in F. destruct (nth_error (w_ct w) i) as [[m0 k0]|] eqn:E0; [|destruct F].
    destruct F as [F (FB & Fu & _)]. cbn [fst snd] in *. subst m0. rewrite FB, Fu. exact (Hc i m k0 E0).
  - intros i m b E. pose proof (HistGen.Forall2_nth _ _ _ i HO) as F. rewrite E in F. destruct (nth_error (w_ob w) i) as [[m0 b0]|] eqn:E0; [|destruct F].
    destruct F as [F (FH & Fz & _)]. cbn [fst snd] in *. subst m0. rewrite FH, Fz. exact (Ho i m b0 E0).
Qed.
Definition gain_of (n : nat) (o : op T) (w' : world T) : Prop :=
  match o with
  | OCorrect j | OCorrectNonlinear j _ => match nth_error (w_ob w') j with Some (m, b) => all_cells n m harmless (ob_K b) | None => True end
  | _ => True end.
Ltac ob H l E := match type of H with bind ?m _ = Ok _ => destruct m as [l|] eqn:E; cbn [bind] in H; [|discriminate] end.
Lemma step_rest n (w w' : world T) o : world_ok c n w -> op_safe c N n (ob_dims w) o -> restful zero n (ob_dims w) o -> at_rest zero harmless n w ->
  step c N n w o = Ok w' -> gain_of n o w' -> at_rest zero harmless n w'.
Proof.
  intros Hw Hs Hr Rw E Hg. pose proof (step_wp c N n w o Hw Hs) as W. rewrite E in W. cbn [wp] in W. destruct W as (Hw' & _ & M).
  pose proof Hw as (Hn & (Vf & Vc & Vo) & Hd). pose proof Rw as (Hx & HA & Hc & Ho).
  destruct o; try (destruct Hr; fail); cbn [step] in E.
  - apply (rest_kept n w); [exact (M eq_refl)|exact Rw|]. ob E f' Ef. injection E as <-. cbn. eapply predict_rest; eauto.
  - apply (rest_kept n w); [exact (M eq_refl)|exact Rw|]. ob E f' Ef. injection E as <-. cbn. eapply predict_tuned_rest; eauto.
  - apply (rest_kept n w); [exact (M eq_refl)|exact Rw|]. ob E f' Ef. injection E as <-. cbn.
    pose proof Vf as (_ & Vx & _ & _ & Vpx & _).
    assert (Hv : forall out, h (kf_x (w_kf w)) (kf_px (w_kf w)) = Ok out -> valid c n 1 out) by (intros out Eo; pose proof (Hs _ _ Vx Vpx) as W; rewrite Eo in W; exact W).
    destruct (predict_nl_bits c N n h (w_kf w) f' Hn Vf Hv Ef) as ((out & Eo & HX) & _). pose proof (Hr _ _ _ Hx Eo) as Ro.
    intros i j v Hi Hj Ev. replace j with 0 in Ev by lia. rewrite HX in Ev by exact Hi. exact (Ro i 0 v Hi (le_n 1) Ev).
  - apply (rest_kept n w); [exact (M eq_refl)|exact Rw|]. ob E f' Ef. injection E as <-. cbn.
    pose proof Vf as (_ & Vx & _ & _ & Vpx & _).
    assert (Hv : forall out, h (kf_x (w_kf w)) (kf_px (w_kf w)) = Ok out -> valid c n 1 out) by (intros out Eo; pose proof (Hs _ _ Vx Vpx) as W; rewrite Eo in W; exact W).
    destruct (predict_tuned_nl_bits c N n lambda h (w_kf w) f' Hn Vf Hv Ef) as ((out & Eo & HX) & _). pose proof (Hr _ _ _ Hx Eo) as Ro.
    intros i j v Hi Hj Ev. replace j with 0 in Ev by lia. rewrite HX in Ev by exact Hi. exact (Ro i 0 v Hi (le_n 1) Ev).
  - destruct (nth_error (w_ct w) i) as [[m k]|] eqn:Ei; [|injection E as <-; exact Rw].
    apply (rest_kept n w); [exact (M eq_refl)|exact Rw|]. ob E r Ef. destruct r as [k' f']. injection E as <-. cbn.
    destruct (Hc i m k Ei) as [Hu HB]. pose proof (HistGen.Forall_nth _ _ _ _ Vc Ei) as Vk. cbn [fst snd] in Vk.
    exact (proj2 (control_rest n m k k' (w_kf w) f' Hn Vf Vk Ef HB Hu) Hx).
  - destruct (nth_error (w_ob w) j) as [[m b]|] eqn:Ej; [|injection E as <-; exact Rw].
    apply (rest_kept n w); [exact (M eq_refl)|exact Rw|]. ob E r Ef. destruct r as [b' f']. injection E as <-.
    assert (Lj : j < length (w_ob w)) by (apply nth_error_Some; rewrite Ej; discriminate).
    unfold gain_of, set_ob, set_kf in Hg; cbn in Hg. rewrite nth_error_upd_same in Hg by exact Lj. cbn.
    destruct (Ho j m b Ej) as [Hz HH]. pose proof (HistGen.Forall_nth _ _ _ _ Vo Ej) as Vb. cbn [fst snd] in Vb.
    assert (Hm : 1 <= m). { assert (Ed : nth_error (ob_dims w) j = Some m) by (unfold ob_dims; rewrite nth_error_map, Ej; reflexivity). exact (HistGen.Forall_nth _ _ _ _ Hd Ed). }
    exact (proj2 (correct_x_rest n m b b' (w_kf w) f' Hn Hm Vb Vf Ef Hg (correct_y_rest n m b b' (w_kf w) f' Hn Hm Vb Vf Ef HH Hx Hz)) Hx).
  - destruct (nth_error (w_ob w) j) as [[m b]|] eqn:Ej; [|injection E as <-; exact Rw].
    apply (rest_kept n w); [exact (M eq_refl)|exact Rw|]. ob E r Ef. destruct r as [b' f']. injection E as <-.
    assert (Lj : j < length (w_ob w)) by (apply nth_error_Some; rewrite Ej; discriminate).
    unfold gain_of, set_ob, set_kf in Hg; cbn in Hg. rewrite nth_error_upd_same in Hg by exact Lj. cbn.
    destruct (Ho j m b Ej) as [Hz HH]. pose proof (HistGen.Forall_nth _ _ _ _ Vo Ej) as Vb. cbn [fst snd] in Vb.
    assert (Ed : nth_error (ob_dims w) j = Some m) by (unfold ob_dims; rewrite nth_error_map, Ej; reflexivity).
    assert (Hm : 1 <= m) by exact (HistGen.Forall_nth _ _ _ _ Hd Ed).
    cbn [op_safe restful] in Hs, Hr. rewrite Ed in Hs, Hr.
    pose proof Vf as (_ & Vx & _). pose proof Vb as (_ & _ & _ & Vy & _).
    assert (Hv : forall out, h (kf_x (w_kf w)) (ob_y b) = Ok out -> valid c m 1 out) by (intros out Eo; pose proof (Hs _ _ Vx Vy) as W; rewrite Eo in W; exact W).
    destruct (correct_nl_bits c N n m h b b' (w_kf w) f' Hn Hm Vb Vf Hv Ef) as ((out & Eo & HY) & _). pose proof (Hr _ _ _ Hx Eo) as Ro.
    assert (Ry : cells m 1 zero (ob_y b')).
    { destruct Laws as (_ & _ & Ld & _). intros i j' v Hi Hj Ev. replace j' with 0 in Ev by lia. rewrite HY in Ev by exact Hi.
      apply obind_inv in Ev as (a & Ea & Ev). apply obind_inv in Ev as (d & Ed' & Ev). exact (Ld _ _ _ (Hz i 0 a Hi (le_n 1) Ea) (Ro i 0 d Hi (le_n 1) Ed') Ev). }
    exact (proj2 (correct_nl_x_rest n m h b b' (w_kf w) f' Hn Hm Vb Vf Hs Ef Hg Ry) Hx).
  - injection E as <-. exact Rw.
  - injection E as <-. exact Rw.
  - destruct (nth_error (w_ct w) i) as [[m k]|] eqn:Ei; injection E as <-; [|exact Rw].
    split; [exact Hx|]. split; [exact HA|]. split; [|exact Ho]. intros i' m' k' E'. unfold set_ct in E'; cbn in E'. rewrite nth_error_upd in E'.
    destruct (Nat.eqb i' i) eqn:Q; [|exact (Hc i' m' k' E')]. destruct (Nat.ltb _ _); [|discriminate]. injection E' as <- <-. cbn. exact (Hc i m k Ei).
  - destruct (nth_error (w_ob w) j) as [[m b]|] eqn:Ei; injection E as <-; [|exact Rw].
    split; [exact Hx|]. split; [exact HA|]. split; [exact Hc|]. intros i' m' k' E'. unfold set_ob in E'; cbn in E'. rewrite nth_error_upd in E'.
    destruct (Nat.eqb i' j) eqn:Q; [|exact (Ho i' m' k' E')]. destruct (Nat.ltb _ _); [|discriminate]. injection E' as <- <-. cbn. exact (Ho j m b Ei).
Qed.
Lemma run_rest n os : forall w w', world_ok c n w -> Forall (op_safe c N n (ob_dims w)) os -> Forall (restful zero n (ob_dims w)) os -> at_rest zero harmless n w ->
  gains_harmless c N harmless n w os -> run c N n w os = Ok w' -> at_rest zero harmless n w'.
Proof.
  induction os as [|o os IH]; intros w w' Hw Hs Hr Rw Hg E; cbn [run] in E; [injection E as <-; exact Rw|].
  inversion Hs as [|? ? S1 S2]; subst. inversion Hr as [|? ? R1 R2]; subst. ob E w1 E1. destruct (Hg w1 E1) as [G1 G2].
  pose proof (step_wp c N n w o Hw S1) as W. rewrite E1 in W. cbn [wp] in W. destruct W as (Hw1 & (D1 & D2) & _).
  apply (IH w1 w'); [exact Hw1|rewrite D2; exact S2|rewrite D2; exact R2| |exact G2|exact E].
  exact (step_rest n w w1 o Hw S1 R1 Rw E1 G1).
Qed.
End Gen.

(** ** floats and fixed-point numbers *)
Lemma float_laws prec emax sz : zero_laws (sf_num prec emax sz) float_zero float_finite float_same.
Proof.
  split; [|split; [|split]].
  - intros a b v Ha Hb [= <-]. destruct a as [s|s| |s m e]; try discriminate; destruct b; try destruct Hb; exact I.
  - intros a b v Ha Hb [= <-]. destruct a; try destruct Ha; destruct b; try destruct Hb; cbn; destruct s, s0; exact I.
  - intros a b v Ha Hb [= <-]. destruct a; try destruct Ha; destruct b; try destruct Hb; cbn; destruct s, s0; exact I.
  - intros a b v Hb [= <-]. destruct b; try destruct Hb. destruct a; cbn; try (left; reflexivity). right. destruct s, s0; split; exact I.
Qed.
Lemma fixed_laws bits frac oc da : (0 < bits)%Z -> zero_laws (fx_num bits frac oc da) fixed_zero fixed_any (fixed_same bits).
Proof.
  intros Hb. assert (F : fx_fits bits 0 = true).
  { unfold fx_fits, fx_min, fx_max. pose proof (Z.pow_pos_nonneg 2 (bits - 1) ltac:(lia) ltac:(lia)). apply andb_true_intro. split; apply Z.leb_le; lia. }
  unfold fixed_zero. split; [|split; [|split]].
  - intros a b v _ -> E. cbn in E. rewrite Z.mul_0_r, Zdiv_0_l in E. unfold fx_res in E. rewrite F in E. injection E as <-. reflexivity.
  - intros a b v -> -> E. cbn in E. unfold fx_res in E. rewrite F in E. injection E as <-. reflexivity.
  - intros a b v -> -> E. cbn in E. unfold fx_res in E. rewrite F in E. injection E as <-. reflexivity.
  - intros a b v -> E Ha. cbn in E. rewrite Z.add_0_r in E. unfold fx_res in E. rewrite Ha in E. injection E as <-. reflexivity.
Qed.

Lemma float_eq_cases a b : SFeqb a b = true -> float_finite a -> a = b \/ (float_zero a /\ float_zero b).
Proof.
  unfold SFeqb, float_finite. destruct a as [s|s| |s m e]; destruct b as [s'|s'| |s' m' e']; cbn; intros H F; try discriminate H; try discriminate F; try (right; split; exact I); try (destruct s; discriminate H); try (destruct s'; discriminate H).
  left. destruct s, s'; try discriminate H; (destruct (Z.compare e e') eqn:E; try discriminate H; apply Z.compare_eq in E; subst e'; change (Pos.compare_cont Eq m m') with (Pos.compare m m') in H; destruct (Pos.compare m m') eqn:Em; try discriminate H; apply Pos.compare_eq in Em; subst m'; reflexivity).
Qed.
Lemma float_sub_eq prec emax a b : SFeqb a b = true -> float_finite a -> float_zero (SFsub prec emax a b).
Proof.
  intros H Hf. destruct (float_eq_cases a b H Hf) as [<-|[Ha Hb]].
  - destruct a as [s|s| |s m e]; try discriminate Hf.
    + destruct s; exact I.
    + cbn. rewrite Z.sub_diag. exact I.
  - destruct a; try destruct Ha; destruct b; try destruct Hb; destruct s, s0; exact I.
Qed.
(** a reading that is what the filter expects *)
Lemma float_expected (c : cfg) prec emax sz n m (o o' : observation spec_float) f f' : 1 <= n -> 1 <= m -> ob_valid c n m o -> kf_valid c n f ->
  correct c (sf_num prec emax sz) n m o f = Ok (o', f') ->
  (forall i z p, i < m -> cell 1 (ob_z o) i 0 = Some z -> b_prodv (sf_num prec emax sz) n (cell n (ob_H o)) (cell 1 (kf_x f)) i 0 = Some p -> sf_finite z = true /\ SFeqb z p = true) ->
  all_cells n m float_finite (ob_K o') -> same_vector float_same n (kf_x f) (kf_x f').
Proof.
  intros Hn Hm Vo Vf E Hz HK. refine (proj1 (correct_x_rest c (sf_num prec emax sz) float_zero float_finite float_same (float_laws prec emax sz) n m o o' f f' Hn Hm Vo Vf E HK _)).
  destruct (correct_bits c _ n m o o' f f' Hn Hm Vo Vf E) as (HY & _). intros i j v Hi Hj Ev. replace j with 0 in Ev by lia. rewrite HY in Ev by exact Hi.
  apply obind_inv in Ev as (a & Ea & Ev). apply obind_inv in Ev as (b & Eb & Ev). destruct (Hz i a b Hi Ea Eb) as [Fa Q]. cbn in Ev. injection Ev as <-. exact (float_sub_eq prec emax a b Q Fa).
Qed.
Lemma fixed_expected (c : cfg) bits frac oc da n m (o o' : observation Z) f f' : (0 < bits)%Z -> 1 <= n -> 1 <= m -> ob_valid c n m o -> kf_valid c n f ->
  correct c (fx_num bits frac oc da) n m o f = Ok (o', f') ->
  (forall i, i < m -> cell 1 (ob_z o) i 0 = b_prodv (fx_num bits frac oc da) n (cell n (ob_H o)) (cell 1 (kf_x f)) i 0) ->
  same_vector (fixed_same bits) n (kf_x f) (kf_x f').
Proof.
  intros Hb Hn Hm Vo Vf E Hz. refine (proj1 (correct_x_rest c (fx_num bits frac oc da) fixed_zero fixed_any (fixed_same bits) (fixed_laws bits frac oc da Hb) n m o o' f f' Hn Hm Vo Vf E _ _)).
  - intros i j v _ _ _. exact I.
  - destruct (correct_bits c _ n m o o' f f' Hn Hm Vo Vf E) as (HY & _). intros i j v Hi Hj Ev. replace j with 0 in Ev by lia. rewrite HY, Hz in Ev by exact Hi.
    apply obind_inv in Ev as (a & Ea & Ev). apply obind_inv in Ev as (b & Eb & Ev). rewrite Ea in Eb. injection Eb as <-. cbn in Ev. rewrite Z.sub_diag in Ev.
    unfold fx_res in Ev. assert (F : fx_fits bits 0 = true).
    { unfold fx_fits, fx_min, fx_max. pose proof (Z.pow_pos_nonneg 2 (bits - 1) ltac:(lia) ltac:(lia)). apply andb_true_intro. split; apply Z.leb_le; lia. }
    rewrite F in Ev. injection Ev as <-. reflexivity.
Qed.
Lemma control_float (c : cfg) prec emax sz n m (k k' : control spec_float) f f' : 1 <= n -> 1 <= m -> kf_valid c n f -> ct_valid c n m k -> control_ c (sf_num prec emax sz) n m k f = Ok (k', f') ->
  all_cells n m float_finite (ct_B k) -> all_cells m 1 float_zero (ct_u k) -> same_vector float_same n (kf_x f) (kf_x f').
Proof. intros Hn Hm Vf Vk E HB Hu. exact (proj1 (control_rest c (sf_num prec emax sz) float_zero float_finite float_same (float_laws prec emax sz) n m k k' f f' Hn Vf Vk E HB Hu) Hm). Qed.
Lemma control_fixed (c : cfg) bits frac oc da n m (k k' : control Z) f f' : (0 < bits)%Z -> 1 <= n -> 1 <= m -> kf_valid c n f -> ct_valid c n m k -> control_ c (fx_num bits frac oc da) n m k f = Ok (k', f') ->
  all_cells m 1 fixed_zero (ct_u k) -> same_vector (fixed_same bits) n (kf_x f) (kf_x f').
Proof.
  intros Hb Hn Hm Vf Vk E Hu. refine (proj1 (control_rest c (fx_num bits frac oc da) fixed_zero fixed_any (fixed_same bits) (fixed_laws bits frac oc da Hb) n m k k' f f' Hn Vf Vk E _ Hu) Hm).
  intros i j v _ _ _. exact I.
Qed.
Lemma gains_any (c : cfg) (N : num Z) n os : forall w, gains_harmless c N fixed_any n w os.
Proof.
  induction os as [|o os IH]; intros w; [exact I|]. intros w' _. split; [|apply IH].
  destruct o; try exact I; destruct (nth_error _ _) as [[m b]|]; try exact I; intros i k v _ _ _; exact I.
Qed.
Lemma run_rest_fixed (c : cfg) bits frac oc da : (0 < bits)%Z ->
  forall n (os : list (op Z)) (w w' : world Z), world_ok c n w -> Forall (op_safe c (fx_num bits frac oc da) n (ob_dims w)) os -> Forall (restful fixed_zero n (ob_dims w)) os ->
  at_rest fixed_zero fixed_any n w -> run c (fx_num bits frac oc da) n w os = Ok w' -> all_cells n 1 fixed_zero (kf_x (w_kf w')).
Proof.
  intros Hb n os w w' Hw Hs Hr Rw E. exact (proj1 (run_rest c _ fixed_zero fixed_any (fixed_same bits) (fixed_laws bits frac oc da Hb) n os w w' Hw Hs Hr Rw (gains_any c _ n os w) E)).
Qed.
