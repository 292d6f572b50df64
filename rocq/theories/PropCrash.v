(** * Properties of calls that panic: C114-C118.

    [cr] (Crash.v) models every call statement by statement, keeping the buffers at the point where a panic unwinds out of it; a program may
    catch the panic and go on ([run_catch]).  [erase] forgets the buffers of a panicking call. *)
From Verif Require Import Spec SpecBits SpecFilter SpecGen Matrix Filter Extended History Crash SpecCrash.
From Verif Require Import BuildSim CrashErase CrashCalls CrashHist CrashTwo CrashMain FloatWit FixedNum CrashExamples.
From Coq Require Import ZArith.
Open Scope nat_scope.

(** ** the model of this file is the model of the others, with the memory kept *)
Theorem C115_forgets_to_the_model : forall (T : Type) (c : cfg) (N : num T) (n : nat) (w : world T) (o : cop T),
  erase (step_cr c N n w o) = run c N n w (forget_op o).
Proof. exact @er_step. Qed.
Print Assumptions C115_forgets_to_the_model.

(** ** C114: a closure that panics leaves no trace *)
Theorem C114_closure_panics : forall (T : Type) (c : cfg) (N : num T) (n : nat) (who : panic -> Prop) (w : world T) (o : cop T) (out : list T) (p : panic),
  world_ok c n w -> cop_keeps c n who (ob_dims w) o -> closure_call w o = Some (Unwound out p) ->
  exists w', step_cr c N n w o = Unwound w' p /\ kf_x (w_kf w') = kf_x (w_kf w) /\ kf_P (w_kf w') = kf_P (w_kf w) /\ world_same_model n w w' /\
    forall os1 os2, Forall2 (cop_alike c n (ob_dims w)) os1 os2 -> same_story c n (run_catch c N n w os1) (run_catch c N n w' os2).
Proof. exact @closure_panics. Qed.
Print Assumptions C114_closure_panics.

Example C114_example : forall c : cfg, 255 <= usize_max c ->
  world_ok c 2 wz /\ cop_keeps c 2 own_panics (ob_dims wz) (CCorrectNonlinear 0 gives_up) /\
  (exists out, closure_call wz (CCorrectNonlinear 0 gives_up) = Some (Unwound out AssertFailed)) /\
  Forall2 (cop_alike (T:=Z) c 2 (ob_dims wz)) [CPredict; CCorrect 0] [CPredict; CCorrect 0].
Proof. exact (fun c Hc => conj (wz_ok c Hc) (conj (gives_up_keeps c 1 2) (conj gives_up_call (alike_self c)))). Qed.

(** ** C115: whatever panics are caught, the objects stay usable *)
Theorem C115_usable : forall (T : Type) (c : cfg) (N : num T) (n : nat) (who : panic -> Prop) (os : list (cop T)) (w : world T),
  world_ok c n w -> Forall (cop_keeps c n who (ob_dims w)) os ->
  let r := run_catch c N n w os in
  world_ok c n (fst r) /\ (ct_dims (fst r) = ct_dims w /\ ob_dims (fst r) = ob_dims w) /\ (forallb cop_is_call os = true -> world_same_model n w (fst r)) /\
  length (snd r) = length os /\ Forall (fun e => forall p, e = Some p -> arith_only N p \/ who p) (snd r).
Proof. exact @run_caught. Qed.
Print Assumptions C115_usable.

(** the panics are those of [run]: none at all exactly if [run] returns, and then it is the same run *)
Theorem C115_quiet : forall (T : Type) (c : cfg) (N : num T) (n : nat) (os : list (cop T)) (w w' : world T),
  (fst (run_catch c N n w os) = w' /\ Forall (fun e => e = None) (snd (run_catch c N n w os))) <-> run c N n w (flat_map forget_op os) = Ok w'.
Proof. exact @run_catch_quiet. Qed.
Print Assumptions C115_quiet.

(** scratch space matters neither for what a program computes nor for when it panics nor for what a panic leaves *)
Theorem C115_scratch_irrelevant : forall (T : Type) (c : cfg) (N : num T) (n : nat) (os1 os2 : list (cop T)) (w1 w2 : world T),
  1 <= n -> Forall (fun m => 1 <= m) (ob_dims w1) -> world_rel c n w1 w2 -> Forall2 (cop_alike c n (ob_dims w1)) os1 os2 ->
  same_story c n (run_catch c N n w1 os1) (run_catch c N n w2 os2).
Proof. exact @run_catch_two. Qed.
Print Assumptions C115_scratch_irrelevant.

(** ... nor does the build *)
Theorem C115_build_irrelevant : forall (T : Type) (N : num T) (n : nat) (who : panic -> Prop) (c1 c2 : cfg) (w : world T) (os : list (cop T)),
  (forall p, who p -> ~ build_panic p) -> world_ok c1 n w -> world_ok c2 n w ->
  Forall (cop_keeps c1 n who (ob_dims w)) os -> Forall (cop_keeps c2 n who (ob_dims w)) os -> run_catch c1 N n w os = run_catch c2 N n w os.
Proof. exact @catch_builds. Qed.
Print Assumptions C115_build_irrelevant.

Example C115_example : (forall c : cfg, 255 <= usize_max c -> world_ok c 2 wz /\ Forall (cop_keeps c 2 own_panics (ob_dims wz)) prog) /\
  snd (run_catch tiny (i16f16_num true true) 2 wz prog) = [None; Some AssertFailed; Some NumPanic; Some AssertFailed; None].
Proof. exact (conj (fun c Hc => conj (wz_ok c Hc) (prog_keeps c)) prog_story). Qed.
Example C115_build_example : (forall p, eq IndexOOB p -> ~ build_panic p) /\ (forall c m n, closure_keeps c m n (eq IndexOOB) stops) /\ (forall c m n, closure_alike c m n stops stops).
Proof. exact (conj stops_plain (conj stops_keeps stops_alike)). Qed.

(** ** C116: what exactly a panicking call leaves behind *)
Theorem C116_predict : forall (T : Type) (c : cfg) (N : num T) (n : nat) (f f' : kalman T) (p : panic),
  1 <= n -> kf_valid c n f -> predict_cr c N n f = Unwound f' p ->
  arith_only N p /\ kf_kept c n f f' /\
  ((untouched f f' /\ no_value n 1 (b_prodv N n (cell n (kf_A f)) (cell 1 (kf_x f)))) \/
   ((forall i, i < n -> cell 1 (kf_x f') i 0 = b_prodv N n (cell n (kf_A f)) (cell 1 (kf_x f)) i 0) /\ left_predict_P N n None f f')).
Proof. exact @predict_left. Qed.
Print Assumptions C116_predict.

Theorem C116_predict_tuned : forall (T : Type) (c : cfg) (N : num T) (n : nat) (lam : T) (f f' : kalman T) (p : panic),
  1 <= n -> kf_valid c n f -> predict_tuned_cr c N n lam f = Unwound f' p ->
  arith_only N p /\ kf_kept c n f f' /\
  ((untouched f f' /\ no_value n 1 (b_prodv N n (cell n (kf_A f)) (cell 1 (kf_x f)))) \/
   ((forall i, i < n -> cell 1 (kf_x f') i 0 = b_prodv N n (cell n (kf_A f)) (cell 1 (kf_x f)) i 0) /\ left_predict_P N n (Some lam) f f')).
Proof. exact @predict_tuned_left. Qed.
Print Assumptions C116_predict_tuned.

Theorem C116_predict_nonlinear : forall (T : Type) (c : cfg) (N : num T) (n : nat) (who : panic -> Prop) (h : list T -> list T -> cr (list T)) (f f' : kalman T) (p : panic),
  1 <= n -> kf_valid c n f -> closure_keeps c n n who h -> predict_nonlinear_cr c N n h f = Unwound f' p ->
  kf_kept c n f f' /\
  ((untouched f f' /\ who p /\ exists out, h (kf_x f) (kf_px f) = Unwound out p) \/
   (arith_only N p /\ exists out, h (kf_x f) (kf_px f) = Returned out /\ (forall i, i < n -> cell 1 (kf_x f') i 0 = cell 1 out i 0) /\ left_predict_P N n None f f')).
Proof. exact @predict_nonlinear_left. Qed.
Print Assumptions C116_predict_nonlinear.

Theorem C116_predict_tuned_nonlinear : forall (T : Type) (c : cfg) (N : num T) (n : nat) (who : panic -> Prop) (lam : T) (h : list T -> list T -> cr (list T)) (f f' : kalman T) (p : panic),
  1 <= n -> kf_valid c n f -> closure_keeps c n n who h -> predict_tuned_nonlinear_cr c N n lam h f = Unwound f' p ->
  kf_kept c n f f' /\
  ((untouched f f' /\ who p /\ exists out, h (kf_x f) (kf_px f) = Unwound out p) \/
   (arith_only N p /\ exists out, h (kf_x f) (kf_px f) = Returned out /\ (forall i, i < n -> cell 1 (kf_x f') i 0 = cell 1 out i 0) /\ left_predict_P N n (Some lam) f f')).
Proof. exact @predict_tuned_nonlinear_left. Qed.
Print Assumptions C116_predict_tuned_nonlinear.

Theorem C116_control : forall (T : Type) (c : cfg) (N : num T) (n m : nat) (k k' : control T) (f f' : kalman T) (p : panic),
  kf_valid c n f -> ct_valid c n m k -> control_cr c N n m k f = Unwound (k', f') p ->
  arith_only N p /\ kf_kept c n f f' /\ ct_kept c n m k k' /\ left_control N n m k f f'.
Proof. exact @control_left. Qed.
Print Assumptions C116_control.

Theorem C116_correct : forall (T : Type) (c : cfg) (N : num T) (n m : nat) (o o' : observation T) (f f' : kalman T) (p : panic),
  1 <= n -> 1 <= m -> ob_valid c n m o -> kf_valid c n f -> correct_cr c N n m o f = Unwound (o', f') p ->
  arith_only N p /\ kf_kept c n f f' /\ ob_kept c n m o o' /\ exists y : nat -> nat -> option T,
    (untouched f f' \/ forall i, i < m -> y i 0 = b_sub N (cell 1 (ob_z o) i 0) (b_prodv N n (cell n (ob_H o)) (cell 1 (kf_x f)) i 0)) /\ left_update N n m y o f o' f'.
Proof. exact @correct_left. Qed.
Print Assumptions C116_correct.

Theorem C116_correct_nonlinear : forall (T : Type) (c : cfg) (N : num T) (n m : nat) (who : panic -> Prop) (h : list T -> list T -> cr (list T)) (o o' : observation T) (f f' : kalman T) (p : panic),
  1 <= n -> 1 <= m -> ob_valid c n m o -> kf_valid c n f -> closure_keeps c m n who h -> correct_nonlinear_cr c N n m h o f = Unwound (o', f') p ->
  kf_kept c n f f' /\ ob_kept c n m o o' /\
  ((untouched f f' /\ who p /\ exists out, h (kf_x f) (ob_y o) = Unwound out p) \/
   (arith_only N p /\ exists out, h (kf_x f) (ob_y o) = Returned out /\ exists y : nat -> nat -> option T,
    (untouched f f' \/ forall i, i < m -> y i 0 = b_sub N (cell 1 (ob_z o) i 0) (cell 1 out i 0)) /\ left_update N n m y o f o' f')).
Proof. exact @correct_nonlinear_left. Qed.
Print Assumptions C116_correct_nonlinear.

Example C116_tuned_example : forall c : cfg, 255 <= usize_max c -> exists f1, kf_valid c 1 kz1 /\ predict_tuned_cr c (i16f16_num true true) 1 0%Z kz1 = Unwound f1 NumPanic /\ kf_P f1 = kf_P kz1.
Proof. exact tuned_torn. Qed.
Example C116_control_example : forall c : cfg, 255 <= usize_max c -> exists k1 f1, kf_valid c 1 kz1 /\ ct_valid c 1 1 cz /\
  control_cr c (i16f16_num true true) 1 1 cz kz1 = Unwound (k1, f1) NumPanic /\ kf_x kz1 = [0%Z] /\ kf_x f1 = [(200 * 65536)%Z] /\ kf_P f1 = kf_P kz1.
Proof. exact control_torn. Qed.

(** ** C117: calls are not atomic.  I16F16 with overflow checks:
    a prediction fails after having predicted the state, and when tried again predicts it a second time *)
Theorem C117_predict_not_atomic_refuted : forall c : cfg, 255 <= usize_max c -> exists f1 f2, kf_valid c 1 kz0 /\
  predict_cr c (i16f16_num true true) 1 kz0 = Unwound f1 NumPanic /\ kf_x f1 = [(2 * 65536)%Z] /\ kf_P f1 = [(20000 * 65536)%Z] /\
  predict_cr c (i16f16_num true true) 1 f1 = Unwound f2 NumPanic /\ kf_x f2 = [(4 * 65536)%Z] /\ kf_P f2 = [(20000 * 65536)%Z].
Proof. exact predict_torn. Qed.
Print Assumptions C117_predict_not_atomic_refuted.

(** ... or fails with a covariance that is neither the old one (8000) nor the new one (33000, which does not exist) *)
Theorem C117_predict_half_refuted : forall c : cfg, 255 <= usize_max c -> exists f1, kf_valid c 1 kzq /\
  predict_cr c (i16f16_num true true) 1 kzq = Unwound f1 NumPanic /\ kf_x f1 = [(2 * 65536)%Z] /\ kf_P f1 = [(32000 * 65536)%Z].
Proof. exact predict_half. Qed.
Print Assumptions C117_predict_half_refuted.

(** a correction fails with one component of the state corrected, the other and the covariance not *)
Theorem C117_correct_not_atomic_refuted : forall c : cfg, 255 <= usize_max c -> exists o1 f1, kf_valid c 2 kz2 /\ ob_valid c 2 1 oz2 /\
  correct_cr c (i16f16_num true true) 2 1 oz2 kz2 = Unwound (o1, f1) NumPanic /\ kf_P f1 = kf_P kz2 /\
  kf_x kz2 = [0%Z; (32000 * 65536)%Z] /\ exists d, d <> 0%Z /\ kf_x f1 = [d; (32000 * 65536)%Z].
Proof. exact correct_torn. Qed.
Print Assumptions C117_correct_not_atomic_refuted.

(** ** C118: rollback.  After any calls, whatever panicked, writing back the state and covariance one had saved restores the program *)
Theorem C118_rollback : forall (T : Type) (c : cfg) (N : num T) (n : nat) (who : panic -> Prop) (w : world T) (os : list (cop T)),
  world_ok c n w -> Forall (cop_keeps c n who (ob_dims w)) os -> forallb cop_is_call os = true ->
  let w' := restore w (fst (run_catch c N n w os)) in
  world_ok c n w' /\ world_rel c n w w' /\
  forall os1 os2, Forall2 (cop_alike c n (ob_dims w)) os1 os2 -> same_story c n (run_catch c N n w os1) (run_catch c N n w' os2).
Proof. exact @rollback. Qed.
Print Assumptions C118_rollback.

Example C118_example : forall c : cfg, 255 <= usize_max c -> world_ok c 2 wz /\ Forall (cop_keeps c 2 own_panics (ob_dims wz)) prog /\ forallb cop_is_call prog = true.
Proof. exact (fun c Hc => conj (wz_ok c Hc) (conj (prog_keeps c) eq_refl)). Qed.
