(** * kalman_builder/regular.rs and kalman_builder/extended.rs

    [d] is T::default(). *)
From Verif Require Export Storage Filter.

Section Builder.
Context {T : Type} (c : cfg) (d : T).

(** kalman_builder/regular.rs:67-89 [KalmanFilterBuilder::build];
    kalman_builder/extended.rs:60-82 is the same up to the type of filter *)
Definition build_filter (n : nat) : res (kalman T) :=
  x <- build_vector n d ;;
  A <- build_matrix c n n d ;;
  P <- build_matrix c n n d ;;
  Q <- build_matrix c n n d ;;
  px <- build_vector n d ;;
  tP <- build_matrix c n n d ;;
  Ok (mk_kalman A x P Q px tP).

(** kalman_builder/regular.rs:142-161 [KalmanFilterControlBuilder::build] *)
Definition build_control (n m : nat) : res (control T) :=
  u <- build_vector m d ;;
  B <- build_matrix c n m d ;;
  Q <- build_matrix c m m d ;;
  BQ <- build_matrix c n m d ;;
  Ok (mk_ctl B u Q BQ).

(** kalman_builder/regular.rs:211-246 [KalmanFilterObservationBuilder::build];
    kalman_builder/extended.rs:137-172 is the same up to the type of observation *)
Definition build_observation (n m : nat) : res (observation T) :=
  z <- build_vector m d ;;
  H <- build_matrix c m n d ;;
  R <- build_matrix c m m d ;;
  y <- build_vector m d ;;
  Sm <- build_matrix c m m d ;;
  K <- build_matrix c n m d ;;
  Sinv <- build_matrix c m m d ;;
  HP <- build_matrix c m n d ;;
  PHt <- build_matrix c n m d ;;
  KHP <- build_matrix c n n d ;;
  Ok (mk_obs H z R y Sm K Sinv HP PHt KHP).

End Builder.
