(** * Concrete cases for C129 (f32) *)
From Coq Require Import Lia ZArith List Floats.SpecFloat.
From Verif Require Import Prelude Numeric FloatNum Matrix Filter Extended Spec SpecFilter SpecBits SpecFloats SpecRest SpecMute BuildSim FloatWit.
Import ListNotations.
Local Open Scope nat_scope.
Notation z0 := (S754_zero false).
Notation oo := (S754_infinity false).
Definition mu1 := f32 1 0. Definition muh := f32 1 (-1).
(** x = (1, 2), P = [[1, 1/2], [1/2, 1]] *)
Definition mu_kf : kalman spec_float := mk_kalman [mu1;mu1;z0;mu1] [mu1;f32 2 0] [mu1;muh;muh;mu1] [z0;z0;z0;z0] [z0;z0] [z0;z0;z0;z0].
(** readings z of x_0 and of x_0 / 2 + x_1, the first with variance r *)
Definition mu_ob (z0' r : spec_float): observation spec_float :=
  mk_obs [mu1;z0;muh;mu1] [z0';f32 5 0] [r;z0;z0;mu1] [z0;z0] [z0;z0;z0;z0] [z0;z0;z0;z0] [z0;z0;z0;z0] [z0;z0;z0;z0] [z0;z0;z0;z0] [z0;z0;z0;z0].
(** the second reading alone *)
Definition mu_ob1 : observation spec_float := mk_obs [muh;mu1] [f32 5 0] [mu1] [z0] [z0] [z0;z0] [z0] [z0;z0] [z0;z0] [z0;z0;z0;z0].

Definition r2 := Eval vm_compute in match correct tiny (f32_num true) 2 2 (mu_ob mu1 oo) mu_kf with Ok r => r | Panic _ => (mu_ob mu1 oo, mu_kf) end.
Definition r1 := Eval vm_compute in match correct tiny (f32_num true) 2 1 mu_ob1 mu_kf with Ok r => r | Panic _ => (mu_ob1, mu_kf) end.
Definition rb := Eval vm_compute in match correct tiny (f32_num true) 2 2 (mu_ob oo oo) mu_kf with Ok r => r | Panic _ => (mu_ob mu1 oo, mu_kf) end.

Lemma cells_dec R C (l : list spec_float) : forallb (fun p => match nth_error l p with Some v => sf_finite v | None => true end) (seq 0 (R * C)) = true -> all_cells R C float_finite l.
Proof.
  intros H i j v Hi Hj E. rewrite forallb_forall in H. specialize (H (i * C + j)). rewrite in_seq in H. unfold cell in E. rewrite E in H. apply H. nia.
Qed.

Lemma mute_ex c : 255 <= usize_max c -> exists o' f' o1' f1', ob_valid c 2 2 (mu_ob mu1 oo) /\ ob_valid c 2 1 mu_ob1 /\ kf_valid c 2 mu_kf /\
  leaves_out 2 1 0 (mu_ob mu1 oo) mu_ob1 /\ cell 2 (ob_R (mu_ob mu1 oo)) 0 0 = Some oo /\
  correct c (f32_num true) 2 2 (mu_ob mu1 oo) mu_kf = Ok (o', f') /\ correct c (f32_num true) 2 1 mu_ob1 mu_kf = Ok (o1', f1') /\
  decomposed (f32_num true) 2 1 mu_ob1 o1' mu_kf /\ all_cells 2 1 float_finite (kf_x f') /\ all_cells 2 2 float_finite (kf_P f') /\
  kf_x f' = kf_x f1' /\ kf_x f' <> kf_x mu_kf.
Proof.
  intros Hc. exists (fst r2), (snd r2), (fst r1), (snd r1).
  split; [red; vt Hc|]. split; [red; vt Hc|]. split; [red; vt Hc|]. split.
  { repeat split; intros i; try intros j; intros Hi; try intros Hj; destruct i as [|i]; try (exfalso; lia); try reflexivity; destruct j as [|[|j]]; try (exfalso; lia); reflexivity. }
  split; [reflexivity|]. split; [apply (correct_tiny c Hc); vm_compute; reflexivity|]. split; [apply (correct_tiny c Hc); vm_compute; reflexivity|]. split.
  { split.
    - intros i Hi. destruct i as [|i]; [|exfalso; lia]. do 3 eexists. split; [vm_compute; reflexivity|]. split; [vm_compute; reflexivity|]. split; [vm_compute; reflexivity|].
      split; [vm_compute; reflexivity|]. split; [vm_compute; reflexivity|]. intros j Hj. exfalso. lia.
    - intros i j Hj. exfalso. lia. }
  split; [apply cells_dec; vm_compute; reflexivity|]. split; [apply cells_dec; vm_compute; reflexivity|]. split; [vm_compute; reflexivity|]. vm_compute. congruence.
Qed.
(** an infinite *reading* is not switched off by an infinite variance *)
Lemma mute_inf_reading c : 255 <= usize_max c -> exists o' f', ob_valid c 2 2 (mu_ob oo oo) /\ kf_valid c 2 mu_kf /\
  correct c (f32_num true) 2 2 (mu_ob oo oo) mu_kf = Ok (o', f') /\ switched_off 2 2 0 o' /\ kf_x f' = [S754_nan; S754_nan].
Proof.
  intros Hc. exists (fst rb), (snd rb). split; [red; vt Hc|]. split; [red; vt Hc|]. split; [apply (correct_tiny c Hc); vm_compute; reflexivity|].
  split; [|vm_compute; reflexivity]. intros i v Hi E. revert E. do 2 (destruct i as [|i]; [vm_compute; intros E; injection E as <-; exact I|]). exfalso. lia.
Qed.
Definition ra := Eval vm_compute in match correct tiny (f32_num true) 1 1 (ob1 mu1 oo) (kf1 mu1 (f32 2 0) mu1) with Ok r => r | Panic _ => (mu_ob mu1 oo, mu_kf) end.
Lemma mute_alone_ex c : 255 <= usize_max c -> exists o' f', ob_valid c 1 1 (ob1 mu1 oo) /\ kf_valid c 1 (kf1 mu1 (f32 2 0) mu1) /\
  cell 1 (ob_R (ob1 mu1 oo)) 0 0 = Some oo /\
  correct c (f32_num true) 1 1 (ob1 mu1 oo) (kf1 mu1 (f32 2 0) mu1) = Ok (o', f') /\ all_cells 1 1 float_finite (kf_x f') /\ all_cells 1 1 float_finite (kf_P f').
Proof.
  intros Hc. exists (fst ra), (snd ra). split; [red; vt Hc|]. split; [red; vt Hc|]. split; [reflexivity|]. split; [apply (correct_tiny c Hc); vm_compute; reflexivity|].
  split; apply cells_dec; vm_compute; reflexivity.
Qed.
