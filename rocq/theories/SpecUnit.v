(** * Vocabulary: prediction with a tuning factor of size one *)
From Coq Require Import ZArith.
From Verif Require Export SpecParam FloatNum FixedNum SpecFloats.
Open Scope nat_scope.

(** the same buffers twice, all their contents satisfying D *)
Definition within {T} (D : T -> Prop) : T -> T -> Prop := fun x y => x = y /\ D x.

(** the operations of the element type, applied to values satisfying D, give values satisfying D (or panic) *)
Definition closed_under {T} (D : T -> Prop) (N : num T) : Prop := num_rel False (within D) N N.

(** [lam] is a tuning factor of size one: its square is one, the reciprocal of one is one, and multiplying by one changes nothing *)
Definition size_one {T} (D : T -> Prop) (N : num T) (lam : T) : Prop :=
  o_mul N lam lam = Some (n_one N) /\ o_recip N (n_one N) = Some (n_one N) /\ (forall x, D x -> o_mul N x (n_one N) = Some x).

(** two programs with the same calls, except that a prediction tuned by a factor of size one in the first may be an ordinary one in the second *)
Inductive alike {T} (D : T -> Prop) (N : num T) : op T -> op T -> Prop :=
| A_same o : op_rel False (within D) o o -> alike D N o o
| A_tuned lam : size_one D N lam -> alike D N (OPredictTuned lam) OPredict
| A_tuned_nl lam h : size_one D N lam -> fun_rel False (within D) h h -> alike D N (OPredictTunedNonlinear lam h) (OPredictNonlinear h).

(** a fixed-point bit pattern of the given width *)
Definition fx_in (bits z : Z) : Prop := fx_fits bits z = true.

(** all the filter's buffers hold bit patterns of that width (always so in Rust) *)
Definition kf_fits (bits : Z) (f : kalman Z) : Prop :=
  Forall (fx_in bits) (kf_A f) /\ Forall (fx_in bits) (kf_x f) /\ Forall (fx_in bits) (kf_P f) /\ Forall (fx_in bits) (kf_Q f) /\
  Forall (fx_in bits) (kf_px f) /\ Forall (fx_in bits) (kf_tP f).
