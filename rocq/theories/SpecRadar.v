(** * What examples/radar_2d.rs computes, over the real numbers *)
From Coq Require Import Reals ZArith List.
From Verif Require Import Numeric Prelude Radar.
Import ListNotations.
Local Open Scope R_scope.

(** the angle of the vector (x, y), in (-pi, pi] *)
Definition angle (y x : R) : R :=
  if Rlt_dec 0 x then atan (y / x)
  else if Rlt_dec x 0 then (if Rle_dec 0 y then atan (y / x) + PI else atan (y / x) - PI)
  else if Rlt_dec 0 y then PI / 2 else if Rlt_dec y 0 then - (PI / 2) else 0.

(** real numbers as an element type, with the operations the example uses: no rounding anywhere *)
Definition real_num : num R := {|
  n_zero := 0; n_one := 1;
  o_add := fun a b => Some (a + b); o_sub := fun a b => Some (a - b); o_mul := fun a b => Some (a * b);
  o_neg := fun a => Some (- a); o_recip := fun a => Some (/ a); o_sqrt := fun a => Some (sqrt a);
  n_le := fun a b => if Rle_dec a b then true else false; n_sum0 := 0 |}.
Definition real_maths : maths R := {|
  ma_num := real_num; ma_lit := fun p q => IZR p / IZR q; ma_div := Rdiv; ma_powi := pow; ma_root := sqrt; ma_atan2 := angle |}.

(** a closure (reading a state of n numbers, writing m numbers) computes a function *)
Definition closure_computes (n m : nat) (F : list R -> list R) (h : list R -> list R -> res (list R)) : Prop :=
  forall x out, length x = n -> length out = m -> h x out = Ok (F x).

(** the derivative of the i-th component of F with respect to the j-th component of the state, at x, is d *)
Definition partial_derivative (F : list R -> list R) (i j : nat) (x : list R) (d : R) : Prop :=
  derivable_pt_lim (fun t => nth i (F (upd x j t)) 0) (nth j x 0) d.

(** constant velocity for a tenth of a second *)
Definition moved (s : list R) : list R := [nth 0 s 0 + nth 2 s 0 / 10; nth 1 s 0 + nth 3 s 0 / 10; nth 2 s 0; nth 3 s 0].

(** what a radar at (2, 1) sees of an object at (x, y) with velocity (vx, vy): distance, bearing, and the speed away from it *)
Definition distance (x y : R) : R := sqrt ((x - 2) ^ 2 + (y - 1) ^ 2).
Definition seen (s : list R) : list R :=
  let x := nth 0 s 0 in let y := nth 1 s 0 in let vx := nth 2 s 0 in let vy := nth 3 s 0 in
  [distance x y; angle (y - 1) (x - 2); ((x - 2) * vx + (y - 1) * vy) / distance x y].
(** the object is neither at the radar nor due west of it, where the bearing jumps from pi to -pi *)
Definition in_view (x y : R) : Prop := y <> 1 \/ 2 < x.

(** the derivatives of [seen], row by row *)
Definition seen_jacobian (x y vx vy : R) : list R :=
  let r := distance x y in
  [(x - 2) / r; (y - 1) / r; 0; 0;
   - (y - 1) / r ^ 2; (x - 2) / r ^ 2; 0; 0;
   (y - 1) * ((y - 1) * vx - (x - 2) * vy) / r ^ 3; (x - 2) * ((x - 2) * vy - (y - 1) * vx) / r ^ 3; (x - 2) / r; (y - 1) / r].
