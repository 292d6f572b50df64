(** * Concrete calls that meet the hypotheses of PropBits.v: two states, two measured components, f32 *)
From Coq Require Import Lia.
From Verif Require Import Spec Matrix Filter Extended SpecFilter BuildSim FloatNum SpecFloats FloatWit.

Definition z32 : spec_float := S754_zero false.
Definition kf_ex : kalman spec_float :=
  mk_kalman [f32 1 0; f32 1 (-2); z32; f32 1 0] [f32 3 0; f32 1 0] [f32 5 0; f32 1 0; f32 1 0; f32 2 0] [f32 1 (-3); z32; z32; f32 1 (-3)] [z32; z32] [z32; z32; z32; z32].
Definition ob_ex : observation spec_float :=
  mk_obs [f32 1 0; z32; f32 1 0; f32 1 0] [f32 2 0; f32 3 0] [f32 1 0; z32; z32; f32 1 0] [z32; z32] [z32; z32; z32; z32] [z32; z32; z32; z32]
    [z32; z32; z32; z32] [z32; z32; z32; z32] [z32; z32; z32; z32] [z32; z32; z32; z32].
Definition ct_ex : control spec_float := mk_ctl [f32 1 (-1); f32 1 0] [f32 3 0] [f32 1 (-4)] [z32; z32].
(** a closure that writes the doubled first and the second state component *)
Definition st_ex (x out : list spec_float) : res (list spec_float) :=
  match x, out with a :: b :: _, _ :: _ :: tl => Ok (SFadd 24 128 a a :: b :: tl) | _, _ => Ok out end.

Section Ex.
Variables (c : cfg) (sz : bool).
Hypothesis Hc : 255 <= usize_max c.
Lemma kf_ex_valid : kf_valid c 2 kf_ex. Proof. red. vt Hc. Qed.
Lemma ob_ex_valid : ob_valid c 2 2 ob_ex. Proof. red. vt Hc. Qed.
Lemma ct_ex_valid : ct_valid c 2 1 ct_ex. Proof. red. vt Hc. Qed.

Notation N := (f32_num sz).
Lemma bits_examples : kf_valid c 2 kf_ex /\ ob_valid c 2 2 ob_ex /\ ct_valid c 2 1 ct_ex /\
  (exists f', predict c N 2 kf_ex = Ok f' /\ all_finite (kf_P f')) /\
  (exists f', predict_tuned c N 2 (f32 3 (-2)) kf_ex = Ok f' /\ all_finite (kf_P f')) /\
  (exists k' f', control_ c N 2 1 ct_ex kf_ex = Ok (k', f') /\ all_finite (kf_P f')) /\
  (exists o' f', correct c N 2 2 ob_ex kf_ex = Ok (o', f') /\ all_finite (kf_P f')).
Proof.
  pose proof (tiny_stricter c Hc) as HS.
  split; [apply kf_ex_valid|]. split; [apply ob_ex_valid|]. split; [apply ct_ex_valid|].
  split. { assert (E : exists f', predict tiny N 2 kf_ex = Ok f' /\ all_finite (kf_P f')) by (destruct sz; vm_compute; eexists; split; reflexivity).
    destruct E as (f' & E & F). exists f'. split; [exact (sim_ok _ _ _ (sim_predict _ _ _ HS _ _) E)|exact F]. }
  split. { assert (E : exists f', predict_tuned tiny N 2 (f32 3 (-2)) kf_ex = Ok f' /\ all_finite (kf_P f')) by (destruct sz; vm_compute; eexists; split; reflexivity).
    destruct E as (f' & E & F). exists f'. split; [exact (sim_ok _ _ _ (sim_predict_tuned _ _ _ HS _ _ _) E)|exact F]. }
  split. { assert (E : exists k' f', control_ tiny N 2 1 ct_ex kf_ex = Ok (k', f') /\ all_finite (kf_P f')) by (destruct sz; vm_compute; do 2 eexists; split; reflexivity).
    destruct E as (k' & f' & E & F). exists k', f'. split; [exact (sim_ok _ _ _ (sim_control _ _ _ HS _ _ _ _) E)|exact F]. }
  assert (E : exists o' f', correct tiny N 2 2 ob_ex kf_ex = Ok (o', f') /\ all_finite (kf_P f')) by (destruct sz; vm_compute; do 2 eexists; split; reflexivity).
  destruct E as (k' & f' & E & F). exists k', f'. split; [exact (sim_ok _ _ _ (sim_correct _ _ _ HS _ _ _ _) E)|exact F].
Qed.
Lemma bits_examples_nl : kf_valid c 2 kf_ex /\ ob_valid c 2 2 ob_ex /\
  (forall out, st_ex (kf_x kf_ex) (kf_px kf_ex) = Ok out -> valid c 2 1 out) /\
  (exists f', predict_nonlinear c N 2 st_ex kf_ex = Ok f' /\ all_finite (kf_P f')) /\
  (exists f', predict_tuned_nonlinear c N 2 (f32 3 (-2)) st_ex kf_ex = Ok f' /\ all_finite (kf_P f')) /\
  (forall out, st_ex (kf_x kf_ex) (ob_y ob_ex) = Ok out -> valid c 2 1 out) /\
  (exists o' f', correct_nonlinear c N 2 2 st_ex ob_ex kf_ex = Ok (o', f') /\ all_finite (kf_P f')).
Proof.
  pose proof (tiny_stricter c Hc) as HS.
  split; [apply kf_ex_valid|]. split; [apply ob_ex_valid|].
  split; [intros out H; injection H as <-; vt Hc|].
  split. { assert (E : exists f', predict_nonlinear tiny N 2 st_ex kf_ex = Ok f' /\ all_finite (kf_P f')) by (destruct sz; vm_compute; eexists; split; reflexivity).
    destruct E as (f' & E & F). exists f'. split; [exact (sim_ok _ _ _ (sim_predict_nl _ _ _ HS _ _ _) E)|exact F]. }
  split. { assert (E : exists f', predict_tuned_nonlinear tiny N 2 (f32 3 (-2)) st_ex kf_ex = Ok f' /\ all_finite (kf_P f')) by (destruct sz; vm_compute; eexists; split; reflexivity).
    destruct E as (f' & E & F). exists f'. split; [exact (sim_ok _ _ _ (sim_predict_tuned_nl _ _ _ HS _ _ _ _) E)|exact F]. }
  split; [intros out H; injection H as <-; vt Hc|].
  assert (E : exists o' f', correct_nonlinear tiny N 2 2 st_ex ob_ex kf_ex = Ok (o', f') /\ all_finite (kf_P f')) by (destruct sz; vm_compute; do 2 eexists; split; reflexivity).
  destruct E as (k' & f' & E & F). exists k', f'. split; [exact (sim_ok _ _ _ (sim_correct_nl _ _ _ HS _ _ _ _ _) E)|exact F].
Qed.
End Ex.
