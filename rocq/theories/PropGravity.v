(** * C105 - C108: fixed-point filters that take readings for ever; examples/gravity_fixed.rs *)
From Coq Require Import ZArith QArith Qabs.
From Verif Require Import Prelude Spec Matrix Filter SpecFilter SpecGen History FixedNum SpecFixed SpecFixedRange SpecFixedGain SpecGravity FixedGain FixedRun GravityFixed GravityProof FixedCert GravityMain.
Open Scope Q_scope.

(** ** C105: the state of a fixed-point filter, one turn (predict, correct) at a time.
    The covariance and the gain of a turn do not depend on states or readings (C29), so one run with any data ([fr], [oref]) settles them.  If that
    run does not overflow and |x|, |z| are small enough for this gain, the turn overflows in no build, has the same covariance and gain, and the
    state is that of exact arithmetic with this gain, p + K (z - H p) with p = A x, up to a few units in the last place. *)
Theorem C105_turn : forall (c : cfg) (bits frac : Z), (0 <= frac)%Z ->
  forall (n m : nat) (f fr fr1 fr2 : kalman Z) (o oref oref' : observation Z) (X Zb : nat -> Q), (1 <= n)%nat -> (1 <= m)%nat ->
  kf_cov c n f fr -> ob_cov c n m o oref ->
  predict c (fx_num bits frac true true) n fr = Ok fr1 -> correct c (fx_num bits frac true true) n m oref fr1 = Ok (oref', fr2) ->
  (forall i, (i < n)%nat -> Qabs (qcell frac 1 (kf_x f) i 0) <= X i) -> (forall j, (j < m)%nat -> Qabs (qcell frac 1 (ob_z o) j 0) <= Zb j) ->
  q_turn_room bits frac n m (qcell frac n (kf_A f)) (qcell frac n (ob_H o)) (qcell frac m (ob_K oref')) X Zb ->
  exists f1 o2 f2, (forall oc da, predict c (fx_num bits frac oc da) n f = Ok f1) /\ (forall oc da, correct c (fx_num bits frac oc da) n m o f1 = Ok (o2, f2)) /\
    kf_cov c n f1 fr1 /\ kf_cov c n f2 fr2 /\ ob_cov c n m o2 oref' /\ same_matrix n m (ob_K o2) (ob_K oref') /\
    (forall i, (i < n)%nat ->
       Qabs (qcell frac 1 (kf_x f2) i 0 - q_turn_state n m (qcell frac n (kf_A f)) (qcell frac n (ob_H o)) (qcell frac m (ob_K oref')) (fun k => qcell frac 1 (kf_x f) k 0) (fun j => qcell frac 1 (ob_z o) j 0) i)
       <= q_turn_rounding frac n m (qcell frac n (ob_H o)) (qcell frac m (ob_K oref')) i).
Proof. exact fx_turn_state. Qed.
Print Assumptions C105_turn.
Example C105_turn_example : forall c : cfg, (255 <= usize_max c)%nat -> exists fr fr1 fr2 oref oref', kf_cov c 3 kf_g fr /\ ob_cov c 3 1 ob_g oref /\ predict c (i16f16_num true true) 3 fr = Ok fr1 /\
  correct c (i16f16_num true true) 3 1 oref fr1 = Ok (oref', fr2) /\
  (forall i, (i < 3)%nat -> Qabs (qcell 16 1 (kf_x kf_g) i 0) <= nth i [7400; 5500; 3000] 0) /\ (forall j, (j < 1)%nat -> Qabs (qcell 16 1 (ob_z ob_g) j 0) <= 4000) /\
  q_turn_room 32 16 3 1 (qcell 16 3 (kf_A kf_g)) (qcell 16 3 (ob_H ob_g)) (qcell 16 1 (ob_K oref')) (fun i => nth i [7400; 5500; 3000] 0) (fun _ => 4000).
Proof. exact turn_example. Qed.
(** any number of turns with any readings up to Zb: if the linear recursion with the filter's gains keeps the state within X, the program overflows
    in no build and its state follows that recursion and stays within X *)
Theorem C105_readings : forall (c : cfg) (bits frac : Z), (0 <= frac)%Z ->
  forall (n m : nat) (f : kalman Z) (o : observation Z) (K : nat -> list Z) (X Zb : nat -> Q), (1 <= n)%nat -> (1 <= m)%nat -> ob_valid c n m o -> fx_gains c bits frac n m f o K ->
  (forall t, q_turn_room bits frac n m (qcell frac n (kf_A f)) (qcell frac n (ob_H o)) (qcell frac m (K t)) X Zb) ->
  q_stays frac n m (qcell frac n (kf_A f)) (qcell frac n (ob_H o)) (fun t => qcell frac m (K t)) (fun i => qcell frac 1 (kf_x f) i 0) Zb X ->
  forall (cs : list (nat * control Z)) (rest : list (nat * observation Z)) (zs : list (list Z)), Forall (reading_ok frac m Zb) zs ->
  exists w' x, (forall oc da, run c (fx_num bits frac oc da) n (mk_world f cs ((m, o) :: rest)) (readings_ops zs) = Ok w') /\
    (forall i, (i < n)%nat -> x 0%nat i == qcell frac 1 (kf_x f) i 0) /\
    q_follows frac n m (qcell frac n (kf_A f)) (qcell frac n (ob_H o)) (fun t => qcell frac m (K t)) (length zs) x (fun t j => qcell frac 1 (nth t zs []) j 0) /\
    (forall i, (i < n)%nat -> x (length zs) i == qcell frac 1 (kf_x (w_kf w')) i 0 /\ Qabs (qcell frac 1 (kf_x (w_kf w')) i 0) <= X i).
Proof. exact fx_readings. Qed.
Print Assumptions C105_readings.
Example C105_readings_example : forall c : cfg, (255 <= usize_max c)%nat -> kf_valid c 3 kf_g /\ ob_valid c 3 1 ob_g /\ fx_gains c 32 16 3 1 kf_g ob_g (gain pathC gEC KinfC) /\
  (forall t, q_turn_room 32 16 3 1 (qcell 16 3 (kf_A kf_g)) (qcell 16 3 (ob_H ob_g)) (qcell 16 1 (gain pathC gEC KinfC t)) (fun i => nth i [7400; 5500; 3000] 0) (fun _ => 4000)) /\
  q_stays 16 3 1 (qcell 16 3 (kf_A kf_g)) (qcell 16 3 (ob_H ob_g)) (fun t => qcell 16 1 (gain pathC gEC KinfC t)) (fun i => qcell 16 1 (kf_x kf_g) i 0) (fun _ => 4000) (fun i => nth i [7400; 5500; 3000] 0).
Proof. exact gravity_meets. Qed.

(** ** C106: the shipped example with any readings within 4 km, any number of them: it panics in no build, gives the same result in all builds, and
    its state stays within 7400 m, 5500 m/s, 3000 m/s^2 *)
Theorem C106_gravity_runs : forall (c : cfg) (distance error : list Z), (255 <= usize_max c)%nat -> (length distance <= length error)%nat -> in_range distance error ->
  exists s v a, (forall oc da, gravity_run c oc da distance error = Ok [s; v; a]) /\ Qabs (fval 16 s) <= 7400 /\ Qabs (fval 16 v) <= 5500 /\ Qabs (fval 16 a) <= 3000.
Proof. exact gravity_runs. Qed.
Print Assumptions C106_gravity_runs.
(** the filter and the observation that the example sets up are the ones of the examples above *)
Example C106_setup : forall (c : cfg) (oc da : bool), (255 <= usize_max c)%nat -> gravity_setup c oc da = Ok (kf_g, ob_g).
Proof. exact setup_ok. Qed.
Example C106_example : (length away <= length half_off)%nat /\ in_range away half_off.
Proof. exact gravity_runs_example. Qed.

(** ** C107: the example's own assertion (the estimate of g lies between 9 and 10) holds for every table of errors up to 4 m, in every build; it
    does not hold for every table of errors up to 5 m *)
Theorem C107_assertion : forall (c : cfg) (oc da : bool) (error : list Z), (255 <= usize_max c)%nat -> (15 <= length error)%nat ->
  (forall t, (t < 15)%nat -> Qabs (fval 16 (nth t error 0%Z)) <= 4) -> gravity_main c oc da real_distance error = Ok tt.
Proof. exact gravity_assertion. Qed.
Print Assumptions C107_assertion.
Theorem C107_sharp : forall (c : cfg) (oc da : bool), (255 <= usize_max c)%nat ->
  exists error, length error = 15%nat /\ (forall t, (t < 15)%nat -> Qabs (fval 16 (nth t error 0%Z)) <= 5) /\ gravity_main c oc da real_distance error = Panic AssertFailed.
Proof. exact assertion_not_always. Qed.
Print Assumptions C107_sharp.
Example C107_example : length observation_error = 15%nat /\ length real_distance = 15%nat /\ in_range real_distance observation_error /\
  (forall t, (t < 15)%nat -> Qabs (fval 16 (nth t observation_error 0%Z)) <= 4) /\
  (forall t, (t < 15)%nat -> Qabs (reading real_distance observation_error t - fall (4905 # 1000) (- (981 # 100)) (981 # 100) (S t)) <= 9 # 10).
Proof. exact shipped_errors. Qed.

(** ** C108: the estimates of the example are close to the truth, whatever the constant acceleration of the body and the errors W of the readings:
    after its fifteen turns, and for ever after 362 turns *)
Theorem C108_accuracy : forall (c : cfg) (distance error : list Z) (s0 v0 a0 W : Q), (255 <= usize_max c)%nat -> length distance = 15%nat -> (15 <= length error)%nat -> in_range distance error ->
  (forall t, (t < 15)%nat -> Qabs (reading distance error t - fall s0 v0 a0 (S t)) <= W) ->
  exists s v a, (forall oc da, gravity_run c oc da distance error = Ok [s; v; a]) /\
    Qabs (fval 16 a - a0) <= (22 # 1000) * Qabs s0 + (2 # 1000) * Qabs v0 + (3 # 10000) * Qabs (6 - a0) + (66 # 1000) * W + (1 # 1000).
Proof. exact gravity_accuracy. Qed.
Print Assumptions C108_accuracy.
Theorem C108_tracks : forall (c : cfg) (distance error : list Z) (s0 v0 a0 W : Q), (255 <= usize_max c)%nat -> (362 <= length distance)%nat -> (length distance <= length error)%nat -> in_range distance error ->
  (forall t, (t <= length distance)%nat -> Qabs (fall s0 v0 a0 t) <= 10000 /\ Qabs (speed v0 a0 t) <= 10000) -> Qabs a0 <= 10000 ->
  (forall t, (t < length distance)%nat -> Qabs (reading distance error t - fall s0 v0 a0 (S t)) <= W) ->
  exists s v a, (forall oc da, gravity_run c oc da distance error = Ok [s; v; a]) /\
    Qabs (fval 16 s - fall s0 v0 a0 (length distance)) <= (173 # 100) * W + (2 # 100) /\
    Qabs (fval 16 v - speed v0 a0 (length distance)) <= (34 # 100) * W + (8 # 1000) /\
    Qabs (fval 16 a - a0) <= (27 # 1000) * W + (12 # 10000).
Proof. exact gravity_tracks. Qed.
Print Assumptions C108_tracks.
Example C108_example : (362 <= length away)%nat /\ (length away <= length half_off)%nat /\ in_range away half_off /\
  (forall t, (t <= length away)%nat -> Qabs (fall 0 1 0 t) <= 10000 /\ Qabs (speed 1 0 t) <= 10000) /\ Qabs 0 <= 10000 /\
  (forall t, (t < length away)%nat -> Qabs (reading away half_off t - fall 0 1 0 (S t)) <= 1 # 2).
Proof. exact away_example. Qed.
