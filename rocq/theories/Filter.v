(** * kalman/regular.rs, controls.rs, observations/regular.rs *)
From Verif Require Export Matrix.

(** kalman/regular.rs:90-121 [RegularKalman] (same fields in kalman/extended.rs:90-121 [ExtendedKalman]) *)
Record kalman (T : Type) : Type := mk_kalman {
  kf_A : list T;        (* STATES x STATES *)
  kf_x : list T;        (* STATES x 1 *)
  kf_P : list T;        (* STATES x STATES *)
  kf_Q : list T;        (* STATES x STATES *)
  kf_px : list T;       (* predicted_x, STATES x 1 *)
  kf_tP : list T        (* temp_P, STATES x STATES *)
}.
Arguments mk_kalman {T}. Arguments kf_A {T}. Arguments kf_x {T}. Arguments kf_P {T}.
Arguments kf_Q {T}. Arguments kf_px {T}. Arguments kf_tP {T}.

(** observations/regular.rs:137-206 [RegularObservation] (same fields in
    observations/extended.rs:137-206 [ExtendedObservation]) *)
Record observation (T : Type) : Type := mk_obs {
  ob_H : list T;        (* OBSERVATIONS x STATES *)
  ob_z : list T;        (* OBSERVATIONS x 1 *)
  ob_R : list T;        (* OBSERVATIONS x OBSERVATIONS *)
  ob_y : list T;        (* OBSERVATIONS x 1 *)
  ob_S : list T;        (* OBSERVATIONS x OBSERVATIONS *)
  ob_K : list T;        (* STATES x OBSERVATIONS *)
  ob_Sinv : list T;     (* temp_S_inv, OBSERVATIONS x OBSERVATIONS *)
  ob_HP : list T;       (* temp_HP, OBSERVATIONS x STATES *)
  ob_PHt : list T;      (* temp_PHt, STATES x OBSERVATIONS *)
  ob_KHP : list T       (* temp_KHP, STATES x STATES *)
}.
Arguments mk_obs {T}. Arguments ob_H {T}. Arguments ob_z {T}. Arguments ob_R {T}.
Arguments ob_y {T}. Arguments ob_S {T}. Arguments ob_K {T}. Arguments ob_Sinv {T}.
Arguments ob_HP {T}. Arguments ob_PHt {T}. Arguments ob_KHP {T}.

(** controls.rs:53-73 [Control] *)
Record control (T : Type) : Type := mk_ctl {
  ct_B : list T;        (* STATES x CONTROLS *)
  ct_u : list T;        (* CONTROLS x 1 *)
  ct_Q : list T;        (* CONTROLS x CONTROLS *)
  ct_BQ : list T        (* temp_BQ, STATES x CONTROLS *)
}.
Arguments mk_ctl {T}. Arguments ct_B {T}. Arguments ct_u {T}. Arguments ct_Q {T}. Arguments ct_BQ {T}.

Section Filter.
Context {T : Type} (c : cfg) (N : num T).

(** kalman/regular.rs:426-445 [predict_x] *)
Definition predict_x (n : nat) (f : kalman T) : res (kalman T) :=
  px <- mult_rowvector c N n n (kf_A f) (kf_x f) (kf_px f) ;;
  x <- copy_to c n 1 px (kf_x f) ;;
  Ok (mk_kalman (kf_A f) x (kf_P f) (kf_Q f) px (kf_tP f)).

(** kalman/regular.rs:449-471 [predict_P]; kalman/extended.rs:443-465 is textually the same *)
Definition predict_P (n : nat) (f : kalman T) : res (kalman T) :=
  tP <- mult c N n n n (kf_A f) (kf_P f) (kf_tP f) ;;
  P <- mult_transb c N n n n tP (kf_A f) (kf_P f) ;;
  P <- add_inplace_b c N n n (kf_Q f) P ;;
  Ok (mk_kalman (kf_A f) (kf_x f) P (kf_Q f) (kf_px f) tP).

(** kalman/regular.rs:475-501 [predict_P_tuned]; kalman/extended.rs:469-495 is textually the same *)
Definition predict_P_tuned (n : nat) (lambda : T) (f : kalman T) : res (kalman T) :=
  l2 <- n_mul N lambda lambda ;;
  factor <- n_recip N l2 ;;
  tP <- mult c N n n n (kf_A f) (kf_P f) (kf_tP f) ;;
  P <- multscale_transb c N factor n n n tP (kf_A f) (kf_P f) ;;
  P <- add_inplace_b c N n n (kf_Q f) P ;;
  Ok (mk_kalman (kf_A f) (kf_x f) P (kf_Q f) (kf_px f) tP).

(** kalman/regular.rs:299-316 [predict] (trait method 727-729 forwards) *)
Definition predict (n : nat) (f : kalman T) : res (kalman T) :=
  f <- predict_x n f ;;
  predict_P n f.

(** kalman/regular.rs:404-421 [predict_tuned] *)
Definition predict_tuned (n : nat) (lambda : T) (f : kalman T) : res (kalman T) :=
  f <- predict_x n f ;;
  predict_P_tuned n lambda f.

(** controls.rs:199-227 [apply_control]; returns the control (scratch changed), x and P.
    [u.is_empty() || B.is_empty()] short-circuits. *)
Definition apply_control (n m : nat) (k : control T) (x P : list T)
  : res (control T * list T * list T) :=
  ue <- is_empty c m 1 ;;
  e <- (if ue then Ok true else is_empty c n m) ;;
  if e then Ok (k, x, P)
  else
    x <- multadd_rowvector c N n m (ct_B k) (ct_u k) x ;;
    BQ <- mult c N n m m (ct_B k) (ct_Q k) (ct_BQ k) ;;
    P <- multadd_transb c N n m n BQ (ct_B k) P ;;
    Ok (mk_ctl (ct_B k) (ct_u k) (ct_Q k) BQ, x, P).

(** kalman/regular.rs:505-513 [control] (controls.rs:326-332 [apply_to] forwards) *)
Definition control_ (n m : nat) (k : control T) (f : kalman T) : res (control T * kalman T) :=
  r <- apply_control n m k (kf_x f) (kf_P f) ;;
  let '(k, x, P) := r in
  Ok (k, mk_kalman (kf_A f) x P (kf_Q f) (kf_px f) (kf_tP f)).

(** observations/regular.rs:365-419 [update_with_innovation]; observations/extended.rs:377-431
    is textually the same.  The flag returned by the Cholesky decomposition is discarded. *)
Definition update_with_innovation (n m : nat) (o : observation T) (x P : list T)
  : res (observation T * list T * list T) :=
  HP <- mult c N m n n (ob_H o) P (ob_HP o) ;;
  Sm <- mult_transb c N m n m HP (ob_H o) (ob_S o) ;;
  Sm <- add_inplace_a c N m m Sm (ob_R o) ;;
  r <- cholesky_decompose_lower c N m m Sm ;;
  let '(_, Sm) := r in
  Sinv <- invert_l_cholesky c N m Sm (ob_Sinv o) ;;
  PHt <- mult_transb c N n n m P (ob_H o) (ob_PHt o) ;;
  K <- mult c N n m m PHt Sinv (ob_K o) ;;
  x <- multadd_rowvector c N n m K (ob_y o) x ;;
  HP <- mult c N m n n (ob_H o) P HP ;;
  KHP <- mult c N n m n K HP (ob_KHP o) ;;
  P <- sub_inplace_a c N n n P KHP ;;
  Ok (mk_obs (ob_H o) (ob_z o) (ob_R o) (ob_y o) Sm K Sinv HP PHt KHP, x, P).

Definition set_y (o : observation T) (y : list T) : observation T :=
  mk_obs (ob_H o) (ob_z o) (ob_R o) y (ob_S o) (ob_K o) (ob_Sinv o) (ob_HP o) (ob_PHt o) (ob_KHP o).

(** observations/regular.rs:339-356 [correct] (trait method 826-832 forwards) *)
Definition obs_correct (n m : nat) (o : observation T) (x P : list T)
  : res (observation T * list T * list T) :=
  y <- mult_rowvector c N m n (ob_H o) x (ob_y o) ;;
  y <- sub_inplace_b c N m 1 (ob_z o) y ;;
  update_with_innovation n m (set_y o y) x P.

(** kalman/regular.rs:589-597 [correct] (trait method 740-747 forwards) *)
Definition correct (n m : nat) (o : observation T) (f : kalman T) : res (observation T * kalman T) :=
  r <- obs_correct n m o (kf_x f) (kf_P f) ;;
  let '(o, x, P) := r in
  Ok (o, mk_kalman (kf_A f) x P (kf_Q f) (kf_px f) (kf_tP f)).

End Filter.
