(** * C109, C110: the state of a floating-point filter, turn by turn *)
From Coq Require Import ZArith Reals.
From Verif Require Import Prelude Spec Matrix Filter SpecFilter History FloatNum SpecFloats SpecReal SpecRange SpecStable SpecTurn RealExamples StableExamples FloatFlocq TurnProof TurnRun TurnReadings FloatCert TurnExamples.
Import SpecFloat.
Open Scope R_scope.

(** ** C109: one turn is  p + K (z - H p)  with  p = A x, up to the rounding error  r_turn_rounding *)
Theorem C109_turn : forall c prec emax sz, format_ok prec emax -> forall n m (f : kalman spec_float) (o : observation spec_float) X Zb,
  (1 <= n)%nat -> (1 <= m)%nat -> kf_valid c n f -> ob_valid c n m o -> kf_all_format prec emax f -> ob_format prec emax o ->
  fin_matrix n n (kf_A f) -> fin_matrix m n (ob_H o) -> fin_vector n (kf_x f) X -> fin_vector m (ob_z o) Zb ->
  exists f1 o' f2, predict c (sf_num prec emax sz) n f = Ok f1 /\ correct c (sf_num prec emax sz) n m o f1 = Ok (o', f2) /\
  let A := rcell n (kf_A f) in let H := rcell n (ob_H o) in let K := rcell m (ob_K o') in
  (fin_matrix n m (ob_K o') -> r_turn_room prec emax n m A H K X Zb ->
   fin_vector n (kf_x f2) (r_big_correction prec emax n m H K (r_big_prediction prec emax n A X) Zb) /\
   forall i, (i < n)%nat -> Rabs (rcell 1 (kf_x f2) i 0 - r_turn_state n m A H K (fun k => rcell 1 (kf_x f) k 0) (fun j => rcell 1 (ob_z o) j 0) i) <= r_turn_rounding prec emax n m A H K X Zb i).
Proof. exact float_turn. Qed.
Print Assumptions C109_turn.
Theorem C109_tuned_turn : forall c prec emax sz, format_ok prec emax -> forall n m lam (f : kalman spec_float) (o : observation spec_float) X Zb, in_format prec emax lam ->
  (1 <= n)%nat -> (1 <= m)%nat -> kf_valid c n f -> ob_valid c n m o -> kf_all_format prec emax f -> ob_format prec emax o ->
  fin_matrix n n (kf_A f) -> fin_matrix m n (ob_H o) -> fin_vector n (kf_x f) X -> fin_vector m (ob_z o) Zb ->
  exists f1 o' f2, predict_tuned c (sf_num prec emax sz) n lam f = Ok f1 /\ correct c (sf_num prec emax sz) n m o f1 = Ok (o', f2) /\
  let A := rcell n (kf_A f) in let H := rcell n (ob_H o) in let K := rcell m (ob_K o') in
  (fin_matrix n m (ob_K o') -> r_turn_room prec emax n m A H K X Zb ->
   fin_vector n (kf_x f2) (r_big_correction prec emax n m H K (r_big_prediction prec emax n A X) Zb) /\
   forall i, (i < n)%nat -> Rabs (rcell 1 (kf_x f2) i 0 - r_turn_state n m A H K (fun k => rcell 1 (kf_x f) k 0) (fun j => rcell 1 (ob_z o) j 0) i) <= r_turn_rounding prec emax n m A H K X Zb i).
Proof. exact float_turn_tuned. Qed.
Print Assumptions C109_tuned_turn.
(** a sensor that reads components of the state: only what the reading adds is rounded in the innovation *)
Theorem C109_reading_components : forall c prec emax sz n m s (f : kalman spec_float) (o : observation spec_float) X Yb, format_ok prec emax -> (1 <= n)%nat -> (1 <= m)%nat -> kf_valid c n f -> ob_valid c n m o ->
  kf_all_format prec emax f -> ob_format prec emax o -> fin_matrix n n (kf_A f) -> fin_matrix m n (ob_H o) -> fin_vector n (kf_x f) X -> fin_matrix m 1 (ob_z o) -> selects n m (rcell n (ob_H o)) s ->
  exists f1 o' f2, predict c (sf_num prec emax sz) n f = Ok f1 /\ correct c (sf_num prec emax sz) n m o f1 = Ok (o', f2) /\
  let A := rcell n (kf_A f) in let H := rcell n (ob_H o) in let K := rcell m (ob_K o') in
  (fin_matrix n m (ob_K o') -> (forall j, (j < m)%nat -> Rabs (rcell 1 (ob_z o) j 0 - r_predicted n A (fun k => rcell 1 (kf_x f) k 0) (s j)) <= Yb j) -> r_sel_room prec emax n m A K X Yb s ->
   fin_matrix n 1 (kf_x f2) /\
   forall i, (i < n)%nat -> Rabs (rcell 1 (kf_x f2) i 0 - r_turn_state n m A H K (fun k => rcell 1 (kf_x f) k 0) (fun j => rcell 1 (ob_z o) j 0) i) <= r_sel_rounding prec emax n m A H K X Yb s i).
Proof. exact float_turn_sharp. Qed.
Print Assumptions C109_reading_components.
(** the hypotheses of the three theorems hold of a filter with two states *)
Example C109_case : forall c, (255 <= usize_max c)%nat -> kf_valid c 2 kf_st /\ ob_valid c 2 1 ob_st /\ kf_all_format 24 128 kf_st /\ ob_format 24 128 ob_st /\
  fin_matrix 2 2 (kf_A kf_st) /\ fin_matrix 1 2 (ob_H ob_st) /\ fin_vector 2 (kf_x kf_st) (fun i => nth i [150; 60] 0) /\ fin_vector 1 (ob_z ob_st) (fun i => nth i [100] 0).
Proof. exact st_setup. Qed.
Example C109_case_turn : forall c sz, (255 <= usize_max c)%nat -> exists f1 o' f2, predict c (sf_num 24 128 sz) 2 kf_st = Ok f1 /\ correct c (sf_num 24 128 sz) 2 1 ob_st f1 = Ok (o', f2) /\ fin_matrix 2 1 (ob_K o') /\
  r_turn_room 24 128 2 1 (rcell 2 (kf_A kf_st)) (rcell 2 (ob_H ob_st)) (rcell 1 (ob_K o')) (fun i => nth i [150; 60] 0) (fun i => nth i [100] 0).
Proof. exact st_first_turn. Qed.
Example C109_case_tuned : forall c sz, (255 <= usize_max c)%nat -> in_format 24 128 (f32 1 (-1)) /\ exists f1 o' f2, predict_tuned c (sf_num 24 128 sz) 2 (f32 1 (-1)) kf_st = Ok f1 /\ correct c (sf_num 24 128 sz) 2 1 ob_st f1 = Ok (o', f2) /\ fin_matrix 2 1 (ob_K o') /\
  r_turn_room 24 128 2 1 (rcell 2 (kf_A kf_st)) (rcell 2 (ob_H ob_st)) (rcell 1 (ob_K o')) (fun i => nth i [150; 60] 0) (fun i => nth i [100] 0).
Proof. exact st_tuned_turn. Qed.
Example C109_case_components : selects 2 1 (rcell 2 (ob_H ob_st)) (fun _ => 0%nat) /\ forall j, (j < 1)%nat -> Rabs (rcell 1 (ob_z ob_st) j 0 - r_predicted 2 (rcell 2 (kf_A kf_st)) (fun k => rcell 1 (kf_x kf_st) k 0) 0) <= 3.
Proof. exact (conj st_selects st_near). Qed.
Example C109_case_sharp : forall c sz, (255 <= usize_max c)%nat -> exists f1 o' f2, predict c (sf_num 24 128 sz) 2 kf_st = Ok f1 /\ correct c (sf_num 24 128 sz) 2 1 ob_st f1 = Ok (o', f2) /\ fin_matrix 2 1 (ob_K o') /\
  r_sel_room 24 128 2 1 (rcell 2 (kf_A kf_st)) (rcell 1 (ob_K o')) (fun i => nth i [150; 60] 0) (fun _ => 3) (fun _ => 0%nat).
Proof. exact st_sharp_turn. Qed.

(** ** C110: readings for ever *)
Theorem C110_readings : forall c prec emax sz, format_ok prec emax -> forall n m (f : kalman spec_float) (o : observation spec_float) (K : nat -> list spec_float) (X Zb : nat -> R),
  (1 <= n)%nat -> (1 <= m)%nat -> ob_valid c n m o -> kf_all_format prec emax f -> ob_format prec emax o -> fl_gains c prec emax sz n m f o K ->
  fin_matrix n n (kf_A f) -> fin_matrix m n (ob_H o) -> fin_matrix n 1 (kf_x f) ->
  (forall t, r_turn_room prec emax n m (rcell n (kf_A f)) (rcell n (ob_H o)) (rcell m (K t)) X Zb) ->
  r_stays prec emax n m (rcell n (kf_A f)) (rcell n (ob_H o)) (fun t => rcell m (K t)) (fun i => rcell 1 (kf_x f) i 0) Zb X ->
  forall cs rest zs, Forall (fl_reading_ok prec emax m Zb) zs ->
  exists w' x, run c (sf_num prec emax sz) n (mk_world f cs ((m, o) :: rest)) (fl_readings_ops zs) = Ok w' /\
    (forall i, (i < n)%nat -> x 0%nat i = rcell 1 (kf_x f) i 0) /\
    r_follows prec emax n m (rcell n (kf_A f)) (rcell n (ob_H o)) (fun t => rcell m (K t)) X Zb (length zs) x (fun t j => rcell 1 (nth t zs []) j 0) /\
    fin_vector n (kf_x (w_kf w')) X /\ (forall i, (i < n)%nat -> x (length zs) i = rcell 1 (kf_x (w_kf w')) i 0).
Proof. exact fl_readings. Qed.
Print Assumptions C110_readings.
(** a box that every turn maps into itself, rounding included, keeps the states for ever *)
Theorem C110_box : forall prec emax n m (A H : nat -> nat -> R) (K : nat -> nat -> nat -> R) (x0 Zb X : nat -> R), (forall i, (i < n)%nat -> Rabs (x0 i) <= X i) ->
  (forall t i, (i < n)%nat -> rsum n (fun k => Rabs (A i k - rsum m (fun j => K t i j * rsum n (fun l => H j l * A l k))) * X k) + rsum m (fun j => Rabs (K t i j) * Zb j)
     + r_turn_rounding prec emax n m A H (K t) X Zb i <= X i) ->
  r_stays prec emax n m A H K x0 Zb X.
Proof. exact contraction_stays. Qed.
Print Assumptions C110_box.
(** f32, two states, readings up to 100: its gains settle after fewer than forty turns, and the states stay within 150 and 60 *)
Example C110_case : forall c sz, (255 <= usize_max c)%nat -> fl_gains c 24 128 sz 2 1 kf_st ob_st (gain_st sz) /\
  (forall t, r_turn_room 24 128 2 1 (rcell 2 (kf_A kf_st)) (rcell 2 (ob_H ob_st)) (rcell 1 (gain_st sz t)) (fun i => nth i [150; 60] 0) (fun i => nth i [100] 0)) /\
  r_stays 24 128 2 1 (rcell 2 (kf_A kf_st)) (rcell 2 (ob_H ob_st)) (fun t => rcell 1 (gain_st sz t)) (fun i => rcell 1 (kf_x kf_st) i 0) (fun i => nth i [100] 0) (fun i => nth i [150; 60] 0).
Proof. exact st_gains. Qed.
Example C110_case_readings : Forall (fl_reading_ok 24 128 1 (fun i => nth i [100] 0)) [[f32 (-100) 0]; [f32 1 (-1)]; [f32 77 0]].
Proof. exact st_reading. Qed.
