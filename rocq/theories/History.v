(** * Programs using the library: sequences of API calls on one filter with its
      controls and observations.

    This file models no function of the repository: it is the client.  A client owns a filter, any
    number of controls and any number of observations (each with its own dimension), and calls them in any
    order; between calls it may write to any matrix the API hands out mutably. *)
From Verif Require Export Filter Extended.

Section History.
Context {T : Type} (c : cfg) (N : num T).

(** Writing [new] to the front of a matrix's slice (its length cannot change); with [new] as long as the slice
    every possible content can be written.  The API hands out [&mut] access through
    kalman/regular.rs:155-157, 191-193, 217-219, 710-712 (x, A, P, Q), kalman/extended.rs:155, 200, 226, 258,
    controls.rs:117, 148, 183 (u, B, Q), observations/regular.rs:259, 288, 462 and
    observations/extended.rs:259, 292, 477 (z, R, H). *)
Definition put (old new : list T) : list T := firstn (length old) new ++ skipn (length new) old.

Inductive op : Type :=
| OPredict                                                             (* regular.rs:299 *)
| OPredictTuned (lambda : T)                                           (* regular.rs:404 *)
| OPredictNonlinear (h : list T -> list T -> res (list T))             (* extended.rs:360 *)
| OPredictTunedNonlinear (lambda : T) (h : list T -> list T -> res (list T)) (* extended.rs:405 *)
| OControl (i : nat)                                                   (* regular.rs:505, i-th control *)
| OCorrect (j : nat)                                                   (* regular.rs:589, j-th observation *)
| OCorrectNonlinear (j : nat) (h : list T -> list T -> res (list T))   (* extended.rs:507 *)
| OSetA (l : list T) | OSetX (l : list T) | OSetP (l : list T) | OSetQ (l : list T)
| OSetB (i : nat) (l : list T) | OSetU (i : nat) (l : list T) | OSetCQ (i : nat) (l : list T)
| OSetH (j : nat) (l : list T) | OSetZ (j : nat) (l : list T) | OSetR (j : nat) (l : list T).

(** the filter, the controls and the observations, the latter with their dimension *)
Record world : Type := mk_world {
  w_kf : kalman T;
  w_ct : list (nat * control T);
  w_ob : list (nat * observation T)
}.

Definition set_kf (w : world) (f : kalman T) : world := mk_world f (w_ct w) (w_ob w).
Definition set_ct (w : world) (i : nat) (v : nat * control T) : world := mk_world (w_kf w) (upd (w_ct w) i v) (w_ob w).
Definition set_ob (w : world) (j : nat) (v : nat * observation T) : world := mk_world (w_kf w) (w_ct w) (upd (w_ob w) j v).

(** one call; [n] is STATES.  An index without object stands for no call at all. *)
Definition step (n : nat) (w : world) (o : op) : res world :=
  match o with
  | OPredict => f <- predict c N n (w_kf w) ;; Ok (set_kf w f)
  | OPredictTuned lam => f <- predict_tuned c N n lam (w_kf w) ;; Ok (set_kf w f)
  | OPredictNonlinear h => f <- predict_nonlinear c N n h (w_kf w) ;; Ok (set_kf w f)
  | OPredictTunedNonlinear lam h => f <- predict_tuned_nonlinear c N n lam h (w_kf w) ;; Ok (set_kf w f)
  | OControl i =>
      match nth_error (w_ct w) i with
      | Some (m, k) => r <- control_ c N n m k (w_kf w) ;; let '(k, f) := r in Ok (set_ct (set_kf w f) i (m, k))
      | None => Ok w
      end
  | OCorrect j =>
      match nth_error (w_ob w) j with
      | Some (m, b) => r <- correct c N n m b (w_kf w) ;; let '(b, f) := r in Ok (set_ob (set_kf w f) j (m, b))
      | None => Ok w
      end
  | OCorrectNonlinear j h =>
      match nth_error (w_ob w) j with
      | Some (m, b) => r <- correct_nonlinear c N n m h b (w_kf w) ;; let '(b, f) := r in Ok (set_ob (set_kf w f) j (m, b))
      | None => Ok w
      end
  | OSetA l => let f := w_kf w in Ok (set_kf w (mk_kalman (put (kf_A f) l) (kf_x f) (kf_P f) (kf_Q f) (kf_px f) (kf_tP f)))
  | OSetX l => let f := w_kf w in Ok (set_kf w (mk_kalman (kf_A f) (put (kf_x f) l) (kf_P f) (kf_Q f) (kf_px f) (kf_tP f)))
  | OSetP l => let f := w_kf w in Ok (set_kf w (mk_kalman (kf_A f) (kf_x f) (put (kf_P f) l) (kf_Q f) (kf_px f) (kf_tP f)))
  | OSetQ l => let f := w_kf w in Ok (set_kf w (mk_kalman (kf_A f) (kf_x f) (kf_P f) (put (kf_Q f) l) (kf_px f) (kf_tP f)))
  | OSetB i l =>
      match nth_error (w_ct w) i with
      | Some (m, k) => Ok (set_ct w i (m, mk_ctl (put (ct_B k) l) (ct_u k) (ct_Q k) (ct_BQ k)))
      | None => Ok w
      end
  | OSetU i l =>
      match nth_error (w_ct w) i with
      | Some (m, k) => Ok (set_ct w i (m, mk_ctl (ct_B k) (put (ct_u k) l) (ct_Q k) (ct_BQ k)))
      | None => Ok w
      end
  | OSetCQ i l =>
      match nth_error (w_ct w) i with
      | Some (m, k) => Ok (set_ct w i (m, mk_ctl (ct_B k) (ct_u k) (put (ct_Q k) l) (ct_BQ k)))
      | None => Ok w
      end
  | OSetH j l =>
      match nth_error (w_ob w) j with
      | Some (m, b) => Ok (set_ob w j (m, mk_obs (put (ob_H b) l) (ob_z b) (ob_R b) (ob_y b) (ob_S b) (ob_K b) (ob_Sinv b) (ob_HP b) (ob_PHt b) (ob_KHP b)))
      | None => Ok w
      end
  | OSetZ j l =>
      match nth_error (w_ob w) j with
      | Some (m, b) => Ok (set_ob w j (m, mk_obs (ob_H b) (put (ob_z b) l) (ob_R b) (ob_y b) (ob_S b) (ob_K b) (ob_Sinv b) (ob_HP b) (ob_PHt b) (ob_KHP b)))
      | None => Ok w
      end
  | OSetR j l =>
      match nth_error (w_ob w) j with
      | Some (m, b) => Ok (set_ob w j (m, mk_obs (ob_H b) (ob_z b) (put (ob_R b) l) (ob_y b) (ob_S b) (ob_K b) (ob_Sinv b) (ob_HP b) (ob_PHt b) (ob_KHP b)))
      | None => Ok w
      end
  end.

(** a whole program *)
Fixpoint run (n : nat) (w : world) (os : list op) : res world :=
  match os with
  | [] => Ok w
  | o :: os => w' <- step n w o ;; run n w' os
  end.

End History.
Arguments op : clear implicits.
Arguments world : clear implicits.
