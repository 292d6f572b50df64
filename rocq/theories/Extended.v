(** * kalman/extended.rs and observations/extended.rs *)
From Verif Require Export Filter.

Section Extended.
Context {T : Type} (c : cfg) (N : num T).

(** kalman/extended.rs:427-439 [predict_x_nonlinear].  The closure reads the state
    and updates the predicted-state buffer it is handed (with whatever that held). *)
Definition predict_x_nonlinear (n : nat) (state_transition : list T -> list T -> res (list T))
    (f : kalman T) : res (kalman T) :=
  px <- state_transition (kf_x f) (kf_px f) ;;
  x <- copy_to c n 1 px (kf_x f) ;;
  Ok (mk_kalman (kf_A f) x (kf_P f) (kf_Q f) px (kf_tP f)).

(** kalman/extended.rs:360-378 [predict_nonlinear] (trait method 647-652 forwards) *)
Definition predict_nonlinear (n : nat) (state_transition : list T -> list T -> res (list T))
    (f : kalman T) : res (kalman T) :=
  f <- predict_x_nonlinear n state_transition f ;;
  predict_P c N n f.

(** kalman/extended.rs:405-423 [predict_tuned_nonlinear] *)
Definition predict_tuned_nonlinear (n : nat) (lambda : T)
    (state_transition : list T -> list T -> res (list T)) (f : kalman T) : res (kalman T) :=
  f <- predict_x_nonlinear n state_transition f ;;
  predict_P_tuned c N n lambda f.

(** observations/extended.rs:350-368 [correct_nonlinear] *)
Definition obs_correct_nonlinear (n m : nat) (h : list T -> list T -> res (list T))
    (o : observation T) (x P : list T) : res (observation T * list T * list T) :=
  y <- h x (ob_y o) ;;
  y <- sub_inplace_b c N m 1 (ob_z o) y ;;
  update_with_innovation c N n m (set_y o y) x P.

(** kalman/extended.rs:507-519 [correct_nonlinear] (trait method 663-673 forwards) *)
Definition correct_nonlinear (n m : nat) (h : list T -> list T -> res (list T))
    (o : observation T) (f : kalman T) : res (observation T * kalman T) :=
  r <- obs_correct_nonlinear n m h o (kf_x f) (kf_P f) ;;
  let '(o, x, P) := r in
  Ok (o, mk_kalman (kf_A f) x P (kf_Q f) (kf_px f) (kf_tP f)).

End Extended.
