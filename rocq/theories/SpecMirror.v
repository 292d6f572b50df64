(** * Vocabulary: two programs that differ only in their data *)
From Coq Require Import ZArith Floats.SpecFloat.
From Verif Require Import Prelude Numeric FloatNum Spec SpecFilter History SpecGen SpecRest.
Local Open Scope nat_scope.

Section Mirror.
Context {T : Type} (c : cfg) (N : num T) (R : T -> T -> Prop).

(** multiplying related data by the same coefficient, adding and subtracting related data gives related data *)
Definition data_laws : Prop :=
  (forall k a b v w, R a b -> o_mul N k a = Some v -> o_mul N k b = Some w -> R v w) /\
  (forall a b a' b' v w, R a b -> R a' b' -> o_add N a a' = Some v -> o_add N b b' = Some w -> R v w) /\
  (forall a b a' b' v w, R a b -> R a' b' -> o_sub N a a' = Some v -> o_sub N b b' = Some w -> R v w).

(** the states, the control inputs and the readings of two programs are related, element by element *)
Definition data_related (n : nat) (w1 w2 : world T) : Prop :=
  same_vector R n (kf_x (w_kf w1)) (kf_x (w_kf w2)) /\
  Forall2 (fun v v' => same_vector R (fst v) (ct_u (snd v)) (ct_u (snd v'))) (w_ct w1) (w_ct w2) /\
  Forall2 (fun v v' => same_vector R (fst v) (ob_z (snd v)) (ob_z (snd v'))) (w_ob w1) (w_ob w2).
(** two closures that take related states to related vectors of m elements *)
Definition closures_related (n m : nat) (h1 h2 : list T -> list T -> res (list T)) : Prop :=
  forall x1 x2 o1 o2 r1 r2, same_vector R n x1 x2 -> h1 x1 o1 = Ok r1 -> h2 x2 o2 = Ok r2 -> same_vector R m r1 r2.
(** the same call with related data: writing related states, readings and control inputs, related closures; everything else is the same *)
Definition op_related (n : nat) (dims : list nat) (o1 o2 : op T) : Prop :=
  match o1, o2 with
  | OSetX l, OSetX l' => Forall2 R l l'
  | OSetU i l, OSetU i' l' => i = i' /\ Forall2 R l l'
  | OSetZ j l, OSetZ j' l' => j = j' /\ Forall2 R l l'
  | OPredictNonlinear h, OPredictNonlinear h' => closures_related n n h h'
  | OPredictTunedNonlinear l h, OPredictTunedNonlinear l' h' => l = l' /\ closures_related n n h h'
  | OCorrectNonlinear j h, OCorrectNonlinear j' h' => j = j' /\ match nth_error dims j with Some m => closures_related n m h h' | None => True end
  | OSetX _, _ | OSetU _ _, _ | OSetZ _ _, _ | OPredictNonlinear _, _ | OPredictTunedNonlinear _ _, _ | OCorrectNonlinear _ _, _ => False
  | _, _ => o1 = o2
  end.
End Mirror.

(** floats: the opposite of each other, or zeros of any sign ([SFopp] of NaN is NaN) *)
Definition opposite (a b : spec_float) : Prop := b = SFopp a \/ (float_zero a /\ float_zero b).
