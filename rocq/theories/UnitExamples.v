(** * Concrete cases for PropUnit.v, and the statements for f32, f64, I16F16, I32F32 *)
From Coq Require Import ZArith Reals Lia.
From Verif Require Import Prelude Spec Matrix Filter Extended History SpecParam Param SpecFilter SpecGen FloatNum FixedNum SpecFloats SpecReal SpecUnit SpecSum
  FloatFlocq FloatFmt UnitProof SumProof BuildSim FloatWit BitsExamples RealExamples RoundExamples FixedWit Chol.
Import SpecFloat.
Open Scope nat_scope.

Lemma kf_in_rel prec emax f : kf_format prec emax f -> all_in_format prec emax (kf_px f) -> all_in_format prec emax (kf_tP f) ->
  SpecParam.kf_rel (within (in_format prec emax)) f f.
Proof. intros (HA & Hx & HP & HQ) Hpx HtP. repeat split; apply fm; assumption. Qed.
Lemma float_tuned_one (c : cfg) (prec emax : Z) (sz : bool) : format_ok prec emax -> forall (n : nat) (lam : spec_float) (f : kalman spec_float),
  lam = sf_one prec \/ lam = SFopp (sf_one prec) -> kf_format prec emax f -> all_in_format prec emax (kf_px f) -> all_in_format prec emax (kf_tP f) ->
  predict_tuned c (sf_num prec emax sz) n lam f = predict c (sf_num prec emax sz) n f.
Proof.
  intros HF n lam f Hl H1 H2 H3. apply (tuned_one (in_format prec emax)).
  - apply float_closed, HF.
  - apply float_size_one; assumption.
  - apply kf_in_rel; assumption.
Qed.
Lemma within_self {T} (D : T -> Prop) l : Forall D l -> Forall2 (within D) l l.
Proof. induction 1; constructor; auto. split; auto. Qed.
Lemma fixed_tuned_one (c : cfg) (bits frac : Z) (oc da : bool) : (0 <= frac < bits - 1)%Z -> forall (n : nat) (lam : Z) (f : kalman Z),
  lam = (2 ^ frac)%Z \/ lam = (- 2 ^ frac)%Z -> kf_fits bits f ->
  predict_tuned c (fx_num bits frac oc da) n lam f = predict c (fx_num bits frac oc da) n f.
Proof.
  intros Hb n lam f Hl (H1 & H2 & H3 & H4 & H5 & H6). apply (tuned_one (fx_in bits)).
  - apply fixed_closed; lia.
  - apply fixed_size_one; [lia|lia|exact Hl].
  - repeat split; apply within_self; assumption.
Qed.

(** ** a program *)
Definition w_ex : world spec_float := mk_world kf_ex [(1, ct_ex)] [(2, ob_ex)].
Definition prog_tuned : list (op spec_float) :=
  [OPredictTuned (sf_one 24); OControl 0; OCorrect 0; OPredictTunedNonlinear (SFopp (sf_one 24)) st_ex; OCorrectNonlinear 0 st_ex; OSetZ 0 [f32 7 0; f32 5 (-1)]; OCorrect 0].
Definition prog_plain : list (op spec_float) :=
  [OPredict; OControl 0; OCorrect 0; OPredictNonlinear st_ex; OCorrectNonlinear 0 st_ex; OSetZ 0 [f32 7 0; f32 5 (-1)]; OCorrect 0].

Lemma f32_ok : format_ok 24 128. Proof. split; lia. Qed.
Lemma st_fmt : fun_rel False (within (in_format 24 128)) st_ex st_ex.
Proof.
  intros x x' o o' Hx Ho. pose proof (within_eq _ _ _ Hx). pose proof (within_eq _ _ _ Ho). subst x' o'. right. unfold st_ex.
  destruct x as [|a [|b x]]; [exact Ho|exact Ho|]. destruct o as [|u [|v o]]; [exact Ho|exact Ho|].
  inversion Hx as [|? ? ? ? (_ & Ha) Hx2]; subst. inversion Hx2 as [|? ? ? ? (_ & Hb) _]; subst. inversion Ho as [|? ? ? ? _ Ho2]; subst. inversion Ho2; subst.
  constructor; [|constructor; [|assumption]]; (split; [reflexivity|]); [|exact Hb]. apply vf_add; try exact Ha; [unfold FLX.Prec_gt_0|unfold BinarySingleNaN.Prec_lt_emax]; lia.
Qed.
Lemma w_ex_format : world_format 24 128 w_ex.
Proof.
  destruct kf_fmt_ex as (A & B & D). split; [apply kf_in_rel; assumption|]. split.
  - constructor; [|constructor]. split; [reflexivity|]. repeat split; apply fm; af.
  - constructor; [|constructor]. split; [reflexivity|]. destruct ob_fmt_ex as (F1 & F2 & F3 & F4 & F5 & F6 & F7 & F8 & F9 & F10). repeat split; apply fm; assumption.
Qed.
Lemma prog_plain_format : Forall (op_format 24 128) prog_plain.
Proof.
  unfold prog_plain. repeat apply Forall_cons; try apply Forall_nil; unfold op_format.
  - apply R_predict.
  - apply R_control.
  - apply R_correct.
  - apply R_nl, st_fmt.
  - apply R_correct_nl, st_fmt.
  - apply R_Z, fm. af.
  - apply R_correct.
Qed.

Section Ex.
Variables (c : cfg) (sz : bool).
Hypothesis Hc : 255 <= usize_max c.
Lemma w_ex_ok : world_ok c 2 w_ex.
Proof.
  split; [lia|]. split; [|constructor; [cbn; lia|constructor]]. split; [apply kf_ex_valid, Hc|]. split.
  - constructor; [apply ct_ex_valid, Hc|constructor].
  - constructor; [apply ob_ex_valid, Hc|constructor].
Qed.
Lemma st_closure : closure_ok c (f32_num sz) 2 2 st_ex.
Proof.
  intros x o Vx Vo. assert (G : exists o', st_ex x o = Ok o' /\ length o' = length o).
  { unfold st_ex. destruct x as [|? [|? ?]]; [eauto|eauto|]. destruct o as [|? [|? ?]]; eauto. }
  destruct G as (o' & -> & EL). exact (valid_length c 2 1 o o' Vo EL).
Qed.
Lemma prog_plain_safe : Forall (op_safe c (f32_num sz) 2 (ob_dims w_ex)) prog_plain.
Proof. unfold prog_plain. repeat (constructor; [first [exact I|exact st_closure]|]). constructor. Qed.
Lemma prog_alike : Forall2 (alike (in_format 24 128) (f32_num sz)) prog_tuned prog_plain.
Proof.
  unfold prog_tuned, prog_plain.
  constructor; [apply A_tuned, (float_size_one 24 128 sz f32_ok); auto|].
  constructor; [apply A_same; constructor|]. constructor; [apply A_same; constructor|].
  constructor; [apply A_tuned_nl; [apply (float_size_one 24 128 sz f32_ok); auto|exact st_fmt]|].
  constructor; [apply A_same; constructor; exact st_fmt|]. constructor; [apply A_same; constructor; apply fm; af|].
  constructor; [apply A_same; constructor|]. constructor.
Qed.
Lemma run_tiny n w os w' : run tiny (f32_num sz) n w os = Ok w' -> run c (f32_num sz) n w os = Ok w'.
Proof. intros E. exact (sim_ok _ _ _ (sim_run (f32_num sz) tiny c (tiny_stricter c Hc) n os w) E). Qed.
Lemma prog_example : exists w', run c (f32_num sz) 2 w_ex prog_plain = Ok w' /\ all_finite (kf_P (w_kf w')) /\ all_finite (kf_x (w_kf w')).
Proof.
  assert (E : exists w', run tiny (f32_num sz) 2 w_ex prog_plain = Ok w' /\ all_finite (kf_P (w_kf w')) /\ all_finite (kf_x (w_kf w'))).
  { destruct sz; vm_compute; eexists; split; [reflexivity|split; reflexivity|reflexivity|split; reflexivity]. }
  destruct E as (w' & E & F). exists w'. split; [exact (run_tiny _ _ _ _ E)|exact F].
Qed.
End Ex.
Lemma unit_example : forall (c : cfg) (sz : bool), 255 <= usize_max c ->
  kf_valid c 2 kf_ex /\ kf_format 24 128 kf_ex /\ all_in_format 24 128 (kf_px kf_ex) /\ all_in_format 24 128 (kf_tP kf_ex) /\
  (exists f', predict c (f32_num sz) 2 kf_ex = Ok f' /\ all_finite (kf_P f')).
Proof.
  intros c sz Hc. destruct kf_fmt_ex as (A & B & D). pose proof (bits_examples c sz Hc) as (_ & _ & _ & H & _). split; [apply kf_ex_valid, Hc|]. auto.
Qed.
Lemma unit_example_fixed : kf_fits 32 kf_fx.
Proof. unfold kf_fits, kf_fx; cbn. repeat split; repeat (constructor; [reflexivity|]); constructor. Qed.
Lemma sum_example : forall (c : cfg) (s1 s2 : bool), 255 <= usize_max c ->
  world_ok c 2 w_ex /\ world_format 24 128 w_ex /\ Forall (op_safe c (f32_num s1) 2 (ob_dims w_ex)) prog_plain /\ Forall (op_format 24 128) prog_plain /\
  exists w', run c (f32_num s1) 2 w_ex prog_plain = Ok w' /\ all_finite (kf_P (w_kf w')) /\ all_finite (kf_x (w_kf w')).
Proof.
  intros c s1 s2 Hc. split; [apply w_ex_ok, Hc|]. split; [exact w_ex_format|]. split; [apply prog_plain_safe|]. split; [exact prog_plain_format|apply prog_example, Hc].
Qed.
