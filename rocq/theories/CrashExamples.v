(** * Caught panics: witnesses (I16F16, overflow checks on), for every build with at least 16-bit pointers *)
From Coq Require Import Lia ZArith.
From Verif Require Import Spec Matrix Filter SpecFilter History SpecGen BuildSim FloatWit FixedNum SpecFixed FixedWit Crash SpecCrash CrashSim.
Open Scope Z_scope.

Section Wit.
Variables (c : cfg).
Hypothesis Hc : (255 <= usize_max c)%nat.
Notation one := 65536.
Notation FX := (i16f16_num true true).

Lemma tiny_cr {S} (m1 m2 : cr S) s : csim m1 m2 -> m1 = Unwound s NumPanic -> m2 = Unwound s NumPanic.
Proof. intros H E. eapply csim_eq; [exact H|exact E|]. intros s' e [= <- <-] [?|[?|?]]; discriminate. Qed.

(** A = 2, x = 1, P = 20000: the state is predicted, the covariance cannot be; once more, and the state is predicted a second time *)
Definition kz0 := kfz (2 * one) one (20000 * one) 0.
Lemma predict_torn : exists f1 f2, kf_valid c 1 kz0 /\
  predict_cr c FX 1 kz0 = Unwound f1 NumPanic /\ kf_x f1 = [2 * one] /\ kf_P f1 = [20000 * one] /\
  predict_cr c FX 1 f1 = Unwound f2 NumPanic /\ kf_x f2 = [4 * one] /\ kf_P f2 = [20000 * one].
Proof.
  exists (mk_kalman [2 * one] [2 * one] [20000 * one] [0] [2 * one] [0]), (mk_kalman [2 * one] [4 * one] [20000 * one] [0] [4 * one] [0]). split; [apply kfz_valid, Hc|].
  split; [eapply tiny_cr; [apply csim_predict, tiny_stricter, Hc|vm_compute; reflexivity]|]. do 2 (split; [reflexivity|]).
  split; [eapply tiny_cr; [apply csim_predict, tiny_stricter, Hc|vm_compute; reflexivity]|]. split; reflexivity.
Qed.

(** a correction that corrects the first state, and then cannot correct the second *)
Definition kz2 : kalman Z := mk_kalman [one; 0; 0; one] [0; 32000 * one] [one; one; one; one] [0; 0; 0; 0] [0; 0] [0; 0; 0; 0].
Definition oz2 : observation Z := mk_obs [one; 0] [2000 * one] [one] [0] [0] [0; 0] [0] [0; 0] [0; 0] [0; 0; 0; 0].
Lemma kz2_valid : kf_valid c 2 kz2. Proof. red. vt Hc. Qed.
Lemma oz2_valid : ob_valid c 2 1 oz2. Proof. red. vt Hc. Qed.
Lemma correct_torn : exists o1 f1, kf_valid c 2 kz2 /\ ob_valid c 2 1 oz2 /\
  correct_cr c FX 2 1 oz2 kz2 = Unwound (o1, f1) NumPanic /\ kf_P f1 = kf_P kz2 /\ kf_x kz2 = [0; 32000 * one] /\ exists d, d <> 0 /\ kf_x f1 = [d; 32000 * one].
Proof.
  assert (E : exists o1 f1, correct_cr tiny FX 2 1 oz2 kz2 = Unwound (o1, f1) NumPanic /\ kf_P f1 = kf_P kz2 /\ exists d, d <> 0 /\ kf_x f1 = [d; 32000 * one]).
  { vm_compute. do 2 eexists. split; [reflexivity|]. split; [reflexivity|]. eexists. split; [|reflexivity]. discriminate. }
  destruct E as (o1 & f1 & E1 & H). exists o1, f1. split; [exact kz2_valid|]. split; [exact oz2_valid|]. split; [eapply tiny_cr; [apply csim_correct, tiny_stricter, Hc|exact E1]|].
  split; [apply H|]. split; [reflexivity|apply H].
Qed.

(** a control input that moves the state and then cannot raise the covariance *)
Definition cz : control Z := mk_ctl [200 * one] [one] [one] [0].
Definition kz1 := kfz one 0 one 0.
Lemma cz_valid : ct_valid c 1 1 cz. Proof. red. vt Hc. Qed.
Lemma control_torn : exists k1 f1, kf_valid c 1 kz1 /\ ct_valid c 1 1 cz /\
  control_cr c FX 1 1 cz kz1 = Unwound (k1, f1) NumPanic /\ kf_x kz1 = [0] /\ kf_x f1 = [200 * one] /\ kf_P f1 = kf_P kz1.
Proof.
  assert (E : exists k1 f1, control_cr tiny FX 1 1 cz kz1 = Unwound (k1, f1) NumPanic /\ kf_x f1 = [200 * one] /\ kf_P f1 = kf_P kz1).
  { vm_compute. do 2 eexists. repeat split. }
  destruct E as (k1 & f1 & E1 & H). exists k1, f1. split; [apply kfz_valid, Hc|]. split; [exact cz_valid|]. split; [eapply tiny_cr; [apply csim_control, tiny_stricter, Hc|exact E1]|]. split; [reflexivity|exact H].
Qed.
(** A P A' is already there, Q cannot be added: neither the old covariance nor the new one *)
Definition kzq := kfz (2 * one) one (8000 * one) (1000 * one).
Lemma predict_half : exists f1, kf_valid c 1 kzq /\ predict_cr c FX 1 kzq = Unwound f1 NumPanic /\ kf_x f1 = [2 * one] /\ kf_P f1 = [32000 * one].
Proof.
  assert (E : exists f1, predict_cr tiny FX 1 kzq = Unwound f1 NumPanic /\ kf_x f1 = [2 * one] /\ kf_P f1 = [32000 * one]).
  { vm_compute. eexists. repeat split. }
  destruct E as (f1 & E1 & H). exists f1. split; [apply kfz_valid, Hc|]. split; [eapply tiny_cr; [apply csim_predict, tiny_stricter, Hc|exact E1]|exact H].
Qed.
(** tuning by lambda = 0: 1 / 0 *)
Lemma tuned_torn : exists f1, kf_valid c 1 kz1 /\ predict_tuned_cr c FX 1 0 kz1 = Unwound f1 NumPanic /\ kf_P f1 = kf_P kz1.
Proof.
  assert (E : exists f1, predict_tuned_cr tiny FX 1 0 kz1 = Unwound f1 NumPanic /\ kf_P f1 = kf_P kz1).
  { vm_compute. eexists. repeat split. }
  destruct E as (f1 & E1 & H). exists f1. split; [apply kfz_valid, Hc|]. split; [eapply tiny_cr; [apply csim_predict_tuned, tiny_stricter, Hc|exact E1]|exact H].
Qed.

(** ** a program with closures that give up half-way *)
Definition gives_up : list Z -> list Z -> cr (list Z) := fun x out => match out with [] => Unwound [] IndexOOB | _ :: r => Unwound (7 :: r) AssertFailed end.
Definition own_panics (p : panic) : Prop := p = AssertFailed \/ p = IndexOOB.
Lemma gives_up_keeps m n : closure_keeps c m n own_panics gives_up.
Proof.
  intros x out Vx Vo. destruct out as [|a r]; cbn [gives_up]; split; [exact Vo|right; reflexivity| |left; reflexivity]. exact Vo.
Qed.
Definition wz : world Z := mk_world kz2 [] [(1%nat, oz2)].
Lemma wz_ok : world_ok c 2 wz.
Proof.
  split; [lia|]. split; [|repeat constructor]. split; [exact kz2_valid|]. split; [constructor|]. constructor; [exact oz2_valid|constructor].
Qed.
Definition prog : list (cop Z) := [CPredict; CPredictNonlinear gives_up; CCorrect 0; CCorrectNonlinear 0 gives_up; CPredict].
Lemma prog_keeps : Forall (cop_keeps c 2 own_panics (ob_dims wz)) prog.
Proof.
  unfold prog. repeat (constructor; [first [exact I|apply gives_up_keeps]|]). constructor.
Qed.
Lemma alike_self : Forall2 (cop_alike (T:=Z) c 2 (ob_dims wz)) [CPredict; CCorrect 0] [CPredict; CCorrect 0].
Proof. repeat constructor. Qed.
Lemma gives_up_call : exists out, closure_call wz (CCorrectNonlinear 0 gives_up) = Some (Unwound out AssertFailed).
Proof. exists [7]. reflexivity. Qed.
End Wit.
(** the covariance of [wz] survives everything the program does, its outcomes are the ones expected *)
Lemma prog_story : snd (run_catch tiny (i16f16_num true true) 2 wz prog) = [None; Some AssertFailed; Some NumPanic; Some AssertFailed; None].
Proof. vm_compute. reflexivity. Qed.
(** a closure that only indexes out of bounds *)
Definition stops : list Z -> list Z -> cr (list Z) := fun x out => Unwound out IndexOOB.
Lemma stops_keeps c m n : closure_keeps c m n (eq IndexOOB) stops.
Proof. intros x out Vx Vo. split; [exact Vo|reflexivity]. Qed.
Lemma stops_alike c m n : closure_alike c m n stops stops.
Proof. intros x1 x2 o1 o2 _ V1 V2. split; [split; assumption|reflexivity]. Qed.
Lemma stops_plain p : eq IndexOOB p -> ~ build_panic p.
Proof. intros <- [?|[?|?]]; discriminate. Qed.
