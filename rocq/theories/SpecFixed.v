(** * Vocabulary: fixed-point results compared with rational numbers *)
From Coq Require Export ZArith QArith.
From Verif Require Export Spec SpecFilter.
Open Scope Z_scope.

(** the number a bit pattern stands for, and the distance between neighbouring numbers *)
Definition fval (frac z : Z) : Q := (inject_Z z / inject_Z (2 ^ frac))%Q.
Definition ulp (frac : Z) : Q := (1 / inject_Z (2 ^ frac))%Q.

(** the value of a cell (0 where there is none) *)
Definition qcell (frac : Z) (C : nat) (l : list Z) (i j : nat) : Q := match cell C l i j with Some z => fval frac z | None => 0%Q end.
(** f 0 + ... + f (K-1) *)
Fixpoint qsum (K : nat) (f : nat -> Q) : Q := match K with O => 0%Q | S k => (qsum k f + f k)%Q end.
(** a number as large as K *)
Definition qn (K : nat) : Q := inject_Z (Z.of_nat K).

(** the ROWS x COLS matrix consists of integers (multiples of 2^frac as bit patterns) *)
Definition integral (frac : Z) (ROWS COLS : nat) (l : list Z) : Prop :=
  forall i j z, (i < ROWS)%nat -> (j < COLS)%nat -> cell COLS l i j = Some z -> exists w, z = w * 2 ^ frac.

(** fixed-point arithmetic with [frac] fractional bits and no limit on the size of numbers:
    products and roots are rounded down, reciprocals towards zero *)
Definition unlimited (frac : Z) : num Z := {|
  n_zero := 0;
  n_one := 2 ^ frac;
  o_add := fun a b => Some (a + b);
  o_sub := fun a b => Some (a - b);
  o_mul := fun a b => Some (a * b / 2 ^ frac);
  o_neg := fun a => Some (- a);
  o_recip := fun a => if a =? 0 then None else Some (Z.quot (2 ^ frac * 2 ^ frac) a);
  o_sqrt := fun a => if a <? 0 then None else Some (Z.sqrt (a * 2 ^ frac));
  n_le := Z.leb;
  n_sum0 := 0 |}.

(** [r] is the sum of K products f k * g k computed with each product rounded down: never too large, and too small by less than
    K units in the last place *)
Definition fx_dot_bound (frac : Z) (K : nat) (f g : nat -> Q) (r : Z) : Prop :=
  (fval frac r <= qsum K (fun k => f k * g k) /\ qsum K (fun k => f k * g k) <= fval frac r + qn K * ulp frac)%Q.
