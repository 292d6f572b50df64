(** * Vocabulary: tables of measurement errors in floating point *)
From Verif Require Export SpecRange SpecFloats.
Open Scope R_scope.

(** n representable finite numbers, each at most w in magnitude *)
Definition errors_within (prec emax : Z) (n : nat) (w : R) (l : list spec_float) : Prop :=
  length l = n /\ all_in_format prec emax l /\ Forall (fun e => sf_finite e = true /\ Rabs (val e) <= w) l.
