(** * C101 - C104: fixed-point filters inside and outside the range of their type
    [fx_num bits frac oc da] is the type of [bits]-bit numbers with [frac] fractional bits in a build with (oc, da) or without overflow checks and
    debug assertions; [unlimited frac] is the same arithmetic without a limit on the size of numbers.  [can_predict], [can_control], [can_correct]
    (SpecDefined.v) say that the textbook formulas, evaluated operation by operation, have values; [fx_top] is the first number too large for the
    type, [ulp] the distance between neighbouring numbers (SpecFixedRange.v). *)
From Coq Require Import ZArith QArith Qabs.
From Verif Require Import Prelude Spec SpecBits SpecDefined Matrix Filter SpecFilter History FixedNum SpecFixed SpecFixedRange Defined FixedRange FixedStable FixedScalar FixedRangeExamples.
Open Scope Q_scope.

(** ** C101: a prediction or a control step returns exactly when its formula can be evaluated, whatever the element type *)
Theorem C101_predict : forall (T : Type) (c : cfg) (N : num T) (n : nat) (f : kalman T), (1 <= n)%nat -> kf_valid c n f ->
  (exists f', predict c N n f = Ok f') <-> can_predict N n (cell n (kf_A f)) (cell 1 (kf_x f)) (cell n (kf_P f)) (cell n (kf_Q f)).
Proof. intros T. exact predict_defined. Qed.
Print Assumptions C101_predict.
Theorem C101_control : forall (T : Type) (c : cfg) (N : num T) (n m : nat) (k : control T) (f : kalman T), (1 <= n)%nat -> (1 <= m)%nat -> kf_valid c n f -> ct_valid c n m k ->
  (exists k' f', control_ c N n m k f = Ok (k', f')) <->
  can_control N n m (cell 1 (kf_x f)) (cell n (kf_P f)) (cell m (ct_B k)) (cell 1 (ct_u k)) (cell m (ct_Q k)).
Proof. intros T. exact control_defined. Qed.
Print Assumptions C101_control.
(** a correction returns when its formulas can be evaluated and moreover every pivot of the innovation covariance times the reciprocal of the
    previous diagonal entry of its factor can be (part of [can_correct]) *)
Theorem C101_correct : forall (T : Type) (c : cfg) (N : num T) (n m : nat) (o : observation T) (f : kalman T), (1 <= n)%nat -> (1 <= m)%nat -> ob_valid c n m o -> kf_valid c n f ->
  can_correct N n m (cell n (ob_H o)) (cell 1 (ob_z o)) (cell m (ob_R o)) (cell 1 (kf_x f)) (cell n (kf_P f)) ->
  exists o' f', correct c N n m o f = Ok (o', f').
Proof. intros T. exact correct_defined. Qed.
Print Assumptions C101_correct.
(** that product is not used for anything, yet it can overflow where nothing else does: two independent measurements with innovation variances
    2^-14 and 1000 in I16F16.  A checked build panics; an unchecked build gives the result of unlimited arithmetic *)
Theorem C101_unused_product_refuted : forall c : cfg, (255 <= usize_max c)%nat -> kf_valid c 2 kf_id /\ ob_valid c 2 2 ob_id /\
  correct c (i16f16_num true true) 2 2 ob_id kf_id = Panic NumPanic /\
  exists o' f', correct c (i16f16_num false false) 2 2 ob_id kf_id = Ok (o', f') /\ correct c (unlimited 16) 2 2 ob_id kf_id = Ok (o', f') /\ kf_x f' = [32768; 32500]%Z /\
    cholesky_decompose_lower c (i16f16_num true true) 2 2 [4; 0; 0; 1000 * 65536]%Z = Panic NumPanic /\
    cholesky_decompose_lower c (unlimited 16) 2 2 [4; 0; 0; 1000 * 65536]%Z = Ok (true, [512; 0; 0; 2072430]%Z).
Proof. exact idle_product. Qed.
Print Assumptions C101_unused_product_refuted.
Example C101_example : forall c : cfg, (255 <= usize_max c)%nat ->
  can_predict (i16f16_num true true) 2 (cell 2 (kf_A FixedWit.kf_fx)) (cell 1 (kf_x FixedWit.kf_fx)) (cell 2 (kf_P FixedWit.kf_fx)) (cell 2 (kf_Q FixedWit.kf_fx)) /\
  can_control (i16f16_num true true) 2 1 (cell 1 (kf_x FixedWit.kf_fx)) (cell 2 (kf_P FixedWit.kf_fx)) (cell 1 (ct_B ct_fx)) (cell 1 (ct_u ct_fx)) (cell 1 (ct_Q ct_fx)) /\
  can_correct (i32f32_num true true) 2 1 (cell 2 (ob_H ob_fx2)) (cell 1 (ob_z ob_fx2)) (cell 1 (ob_R ob_fx2)) (cell 1 (kf_x kf_fx2)) (cell 2 (kf_P kf_fx2)).
Proof. exact defined_example. Qed.

(** ** C102: where the magnitudes of all terms, plus one unit in the last place per product, fit in the range, nothing overflows: all builds,
    checked or not, give the result of unlimited arithmetic *)
Theorem C102_mult : forall (c : cfg) (bits frac : Z), (0 <= frac)%Z -> forall (M K U : nat) (a b out : list Z), valid c M K a -> valid c K U b -> valid c M U out ->
  (forall i j, (i < M)%nat -> (j < U)%nat -> fx_vec_room bits frac K 0 (fun k => qcell frac K a i k) (fun k => qcell frac U b k j)) ->
  exists out', (forall oc da, mult c (fx_num bits frac oc da) M K U a b out = Ok out') /\ mult c (unlimited frac) M K U a b out = Ok out'.
Proof. exact fx_mult_range. Qed.
Print Assumptions C102_mult.
Theorem C102_mult_transb : forall (c : cfg) (bits frac : Z), (0 <= frac)%Z -> forall (M K U : nat) (a b out : list Z), valid c M K a -> valid c U K b -> valid c M U out ->
  (forall i j, (i < M)%nat -> (j < U)%nat -> fx_vec_room bits frac K 0 (fun k => qcell frac K a i k) (fun k => qcell frac K b j k)) ->
  exists out', (forall oc da, mult_transb c (fx_num bits frac oc da) M K U a b out = Ok out') /\ mult_transb c (unlimited frac) M K U a b out = Ok out'.
Proof. exact fx_mult_transb_range. Qed.
Print Assumptions C102_mult_transb.
Theorem C102_predict : forall (c : cfg) (bits frac : Z), (0 <= frac)%Z -> forall (n : nat) (f : kalman Z), (1 <= n)%nat -> kf_valid c n f ->
  (forall i, (i < n)%nat -> fx_vec_room bits frac n 0 (fun k => qcell frac n (kf_A f) i k) (fun k => qcell frac 1 (kf_x f) k 0)) ->
  (forall i j, (i < n)%nat -> (j < n)%nat -> fx_mat_room bits frac n n (qcell frac n (kf_Q f) i j) (fun l => qcell frac n (kf_A f) i l) (fun l k => qcell frac n (kf_P f) l k) (fun k => qcell frac n (kf_A f) j k)) ->
  exists f', (forall oc da, predict c (fx_num bits frac oc da) n f = Ok f') /\ predict c (unlimited frac) n f = Ok f'.
Proof. exact fx_predict_range. Qed.
Print Assumptions C102_predict.
Theorem C102_control : forall (c : cfg) (bits frac : Z), (0 <= frac)%Z -> forall (n m : nat) (k : control Z) (f : kalman Z), (1 <= n)%nat -> (1 <= m)%nat -> kf_valid c n f -> ct_valid c n m k ->
  (forall i, (i < n)%nat -> fx_vec_room bits frac m (qcell frac 1 (kf_x f) i 0) (fun l => qcell frac m (ct_B k) i l) (fun l => qcell frac 1 (ct_u k) l 0)) ->
  (forall i j, (i < n)%nat -> (j < n)%nat -> fx_mat_room bits frac m m (qcell frac n (kf_P f) i j) (fun l => qcell frac m (ct_B k) i l) (fun l p => qcell frac m (ct_Q k) l p) (fun p => qcell frac m (ct_B k) j p)) ->
  exists k' f', (forall oc da, control_ c (fx_num bits frac oc da) n m k f = Ok (k', f')) /\ control_ c (unlimited frac) n m k f = Ok (k', f').
Proof. exact fx_control_range. Qed.
Print Assumptions C102_control.
(** in one number: no entry exceeds M and 4 n^2 M^3 fits *)
Theorem C102_predict_simple : forall (c : cfg) (bits frac : Z), (0 <= frac)%Z -> forall (n : nat) (f : kalman Z) (M : Q), (1 <= n)%nat -> kf_valid c n f -> 1 <= M ->
  q_at_most frac n n (kf_A f) M -> q_at_most frac n 1 (kf_x f) M -> q_at_most frac n n (kf_P f) M -> q_at_most frac n n (kf_Q f) M ->
  4 * (qn n * qn n) * (M * M * M) <= fx_top bits frac ->
  exists f', (forall oc da, predict c (fx_num bits frac oc da) n f = Ok f') /\ predict c (unlimited frac) n f = Ok f'.
Proof. exact fx_predict_simple. Qed.
Print Assumptions C102_predict_simple.
Theorem C102_control_simple : forall (c : cfg) (bits frac : Z), (0 <= frac)%Z -> forall (n m : nat) (k : control Z) (f : kalman Z) (M : Q), (1 <= n)%nat -> (1 <= m)%nat -> kf_valid c n f -> ct_valid c n m k -> 1 <= M ->
  q_at_most frac n 1 (kf_x f) M -> q_at_most frac n n (kf_P f) M -> q_at_most frac n m (ct_B k) M -> q_at_most frac m 1 (ct_u k) M -> q_at_most frac m m (ct_Q k) M ->
  4 * (qn m * qn m) * (M * M * M) <= fx_top bits frac ->
  exists k' f', (forall oc da, control_ c (fx_num bits frac oc da) n m k f = Ok (k', f')) /\ control_ c (unlimited frac) n m k f = Ok (k', f').
Proof. exact fx_control_simple. Qed.
Print Assumptions C102_control_simple.
(** an I16F16 filter with numbers up to 3 *)
Example C102_example : forall c : cfg, (255 <= usize_max c)%nat -> kf_valid c 2 FixedWit.kf_fx /\ ct_valid c 2 1 ct_fx /\
  (q_at_most 16 2 2 (kf_A FixedWit.kf_fx) 3 /\ q_at_most 16 2 1 (kf_x FixedWit.kf_fx) 3 /\ q_at_most 16 2 2 (kf_P FixedWit.kf_fx) 3 /\ q_at_most 16 2 2 (kf_Q FixedWit.kf_fx) 3) /\
  (q_at_most 16 2 1 (ct_B ct_fx) 3 /\ q_at_most 16 1 1 (ct_u ct_fx) 3 /\ q_at_most 16 1 1 (ct_Q ct_fx) 3) /\
  4 * (qn 2 * qn 2) * (3 * 3 * 3) <= fx_top 32 16.
Proof. exact range_example. Qed.

(** ** C103: a contracting system run for ever.  A turn is [predict], optionally followed by writing new inputs and [control].  The rows of A add up
    (in magnitude) to at most rho, those of B to at most beta, no input exceeds U, no entry of Q exceeds q, none of the control's Q exceeds qu; X and M
    satisfy two scalar inequalities [fx_keeps].  No number of turns overflows, in any build *)
Theorem C103_in_range_for_ever : forall (c : cfg) (bits frac : Z), (0 <= frac)%Z -> forall (n m : nat) (f : kalman Z) (k : control Z) (rho beta U q qu X M : Q),
  (1 <= n)%nat -> (1 <= m)%nat -> fx_setup c frac n m f k rho beta U q qu X M -> fx_keeps bits frac n m rho beta U q qu X M ->
  forall (cs : list (nat * control Z)) (obs : list (nat * observation Z)) (ts : list fx_turn), Forall (fx_turn_ok frac m U) ts ->
  exists w', (forall oc da, run c (fx_num bits frac oc da) n (mk_world f ((m, k) :: cs) obs) (fx_turns_ops ts) = Ok w') /\
    q_at_most frac n 1 (kf_x (w_kf w')) X /\ q_at_most frac n n (kf_P (w_kf w')) M.
Proof. exact fx_forever. Qed.
Print Assumptions C103_in_range_for_ever.
(** and the distance from exact arithmetic has a bound that does not depend on the number of turns *)
Theorem C103_errors_do_not_accumulate : forall (c : cfg) (bits frac : Z), (0 <= frac)%Z -> forall (n m : nat) (f : kalman Z) (k : control Z) (rho beta U q qu X M : Q),
  (1 <= n)%nat -> (1 <= m)%nat -> fx_setup c frac n m f k rho beta U q qu X M -> fx_keeps bits frac n m rho beta U q qu X M -> rho < 1 ->
  forall (cs : list (nat * control Z)) (obs : list (nat * observation Z)) (ts : list fx_turn), Forall (fx_turn_ok frac m U) ts ->
  let exact := q_ideal frac n m (qcell frac n (kf_A f)) (qcell frac n (kf_Q f)) (qcell frac m (ct_B k)) (qcell frac m (ct_Q k)) ts (fun i => qcell frac 1 (kf_x f) i 0, qcell frac n (kf_P f)) in
  exists w', (forall oc da, run c (fx_num bits frac oc da) n (mk_world f ((m, k) :: cs) obs) (fx_turns_ops ts) = Ok w') /\
    (forall i, (i < n)%nat -> Qabs (qcell frac 1 (kf_x (w_kf w')) i 0 - fst exact i) <= fx_turn_err frac n m / (1 - rho)) /\
    (forall i j, (i < n)%nat -> (j < n)%nat -> Qabs (qcell frac n (kf_P (w_kf w')) i j - snd exact i j) <= fx_turn_cov_err frac n m rho beta / (1 - rho * rho)).
Proof. exact fx_forever_error. Qed.
Print Assumptions C103_errors_do_not_accumulate.
(** an I16F16 filter with two states and inputs up to 4: the state stays below 16, the covariance below 2, the former within 1/8192 of the exact one *)
Example C103_example : forall c : cfg, (255 <= usize_max c)%nat ->
  fx_setup c 16 2 1 kf_stz ct_stz (5#8) 1 4 (1#8) (1#8) 16 2 /\ fx_keeps 32 16 2 1 (5#8) 1 4 (1#8) (1#8) 16 2 /\
  fx_turn_ok 16 1 4 (Some [- 3 * 65536]%Z) /\ fx_turn_ok 16 1 4 None /\
  fx_turn_err 16 2 1 / (1 - (5#8)) <= 1 # 8192 /\ fx_turn_cov_err 16 2 1 (5#8) 1 / (1 - (5#8) * (5#8)) <= 1 # 7000.
Proof. exact forever_example. Qed.

(** ** C104: a correction by one measured number.  No number exceeds M, the exact innovation variance is at least 1/g (and a little), and
    32 g n^2 M^4 fits: then no build overflows, and the new state and covariance are within an explicit multiple of the unit in the last place
    of those of the exact correction *)
Theorem C104_scalar_correction : forall (c : cfg) (bits frac : Z), (0 <= frac)%Z -> forall (n : nat) (o : observation Z) (f : kalman Z) (M g : Q), (1 <= n)%nat ->
  fx_scalar_setup c frac n o f M -> 1 <= M -> 1 <= g -> 32 * g * (qn n * qn n) * (M * M * M * M) <= fx_top bits frac ->
  let H := fun l => qcell frac n (ob_H o) 0 l in let z := qcell frac 1 (ob_z o) 0 0 in let R := qcell frac 1 (ob_R o) 0 0 in
  let x := fun l => qcell frac 1 (kf_x f) l 0 in let P := qcell frac n (kf_P f) in
  1 / g + qn n * (1 + qn n * M) * ulp frac <= q_innovation_variance n H P R ->
  exists o' f', (forall oc da, correct c (fx_num bits frac oc da) n 1 o f = Ok (o', f')) /\
  (forall i, (i < n)%nat -> Qabs (qcell frac 1 (kf_x f') i 0 - fst (q_correct1 n H z R x P) i) <= 41 * (g * g) * (qn n * qn n * qn n * qn n) * (M * M * M * M * M) * ulp frac) /\
  (forall i j, (i < n)%nat -> (j < n)%nat -> Qabs (qcell frac n (kf_P f') i j - snd (q_correct1 n H z R x P) i j) <= 23 * (g * g) * (qn n * qn n * qn n * qn n) * (M * M * M * M * M) * ulp frac).
Proof. exact fx_scalar_correct. Qed.
Print Assumptions C104_scalar_correction.
(** I32F32, position and velocity, numbers up to 4: within 1/6000 *)
Example C104_example : forall c : cfg, (255 <= usize_max c)%nat -> fx_scalar_setup c 32 2 ob_fx2 kf_fx2 4 /\ 32 * 1 * (qn 2 * qn 2) * (4 * 4 * 4 * 4) <= fx_top 64 32 /\
  1 / 1 + qn 2 * (1 + qn 2 * 4) * ulp 32 <= q_innovation_variance 2 (fun l => qcell 32 2 (ob_H ob_fx2) 0 l) (qcell 32 2 (kf_P kf_fx2)) (qcell 32 1 (ob_R ob_fx2) 0 0) /\
  41 * (1 * 1) * (qn 2 * qn 2 * qn 2 * qn 2) * (4 * 4 * 4 * 4 * 4) * ulp 32 <= 1 # 6000.
Proof. exact scalar_example. Qed.
