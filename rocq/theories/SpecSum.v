(** * Vocabulary: float programs compiled with Rust releases whose [Iterator::sum] starts from +0.0 and from -0.0 *)
From Verif Require Export SpecUnit SpecGen SpecReal.
Open Scope nat_scope.

(** the same float, or zeros of different signs *)
Definition but_sign (x y : spec_float) : Prop := x = y \/ exists s s', x = S754_zero s /\ y = S754_zero s'.

(** all buffers of two observations are identical, but the private scratch inverse, where zeros may have different signs *)
Definition ob_but (o o' : observation spec_float) : Prop :=
  ob_H o' = ob_H o /\ ob_z o' = ob_z o /\ ob_R o' = ob_R o /\ ob_y o' = ob_y o /\ ob_S o' = ob_S o /\ ob_K o' = ob_K o /\
  Forall2 but_sign (ob_Sinv o) (ob_Sinv o') /\ ob_HP o' = ob_HP o /\ ob_PHt o' = ob_PHt o /\ ob_KHP o' = ob_KHP o.

(** two program states: identical filter and controls, and observations as above *)
Definition world_but (w v : world spec_float) : Prop :=
  w_kf v = w_kf w /\ w_ct v = w_ct w /\ Forall2 (fun a b => fst b = fst a /\ ob_but (snd a) (snd b)) (w_ob w) (w_ob v).

(** every buffer of the program holds representable floats (always so in Rust), and its closures return such *)
Definition world_format (prec emax : Z) (w : world spec_float) : Prop := SpecParam.world_rel (within (in_format prec emax)) w w.
Definition op_format (prec emax : Z) (o : op spec_float) : Prop := op_rel False (within (in_format prec emax)) o o.
