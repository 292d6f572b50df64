(** * Vocabulary: the same program in units that differ by powers of two *)
From Coq Require Import ZArith Reals Bool List Floats.SpecFloat.
From Flocq Require Import Core.
From Verif Require Import Prelude Numeric FloatNum Spec SpecFilter SpecBits SpecFloats SpecReal History SpecGen SpecMute.
Local Open Scope nat_scope.

(** ** floats that refuse to lose precision outside rounding

    The operations of the format, except that one whose result overflows, is a NaN, or lies in the lowest binade or below (where numbers
    have fewer significant digits, or vanish) panics.  A program that runs on this element type is one during which nothing over- or underflows. *)
Definition is_zero (v : spec_float) : bool := match v with S754_zero _ => true | _ => false end.
Definition roomy (prec emax : Z) (v : spec_float) : bool :=
  match v with S754_zero _ => true | S754_finite _ _ e => (3 - emax - prec <? e)%Z | _ => false end.
Definition room (prec emax : Z) (v : spec_float) : option spec_float := if roomy prec emax v then Some v else None.
Definition sf_roomy (prec emax : Z) (sz : bool) : num spec_float := {|
  n_zero := S754_zero false;
  n_one := sf_one prec;
  o_add := fun a b => room prec emax (SFadd prec emax a b);
  o_sub := fun a b => room prec emax (SFsub prec emax a b);
  o_mul := fun a b => let v := SFmul prec emax a b in if is_zero v && negb (is_zero a || is_zero b) then None else room prec emax v;
  o_neg := fun a => Some (SFopp a);
  o_recip := fun a => let v := SFdiv prec emax (sf_one prec) a in if is_zero v then None else room prec emax v;
  o_sqrt := fun a => room prec emax (SFsqrt prec emax a);
  n_le := SFleb;
  n_sum0 := S754_zero sz |}.

Section Units.
Variables (c : cfg) (prec emax : Z).
(** v' = 2^e * v, both finite numbers of the format *)
Definition times_pow2 (e : Z) (v v' : spec_float) : Prop :=
  in_format prec emax v /\ in_format prec emax v' /\ sf_finite v = true /\ sf_finite v' = true /\ val v' = (bpow radix2 e * val v)%R.
(** cell (i, j) of the second ROWS x COLS matrix is 2^(e i j) times that of the first *)
Definition scaled (ROWS COLS : nat) (e : nat -> nat -> Z) (l l' : list spec_float) : Prop :=
  forall i j v v', i < ROWS -> j < COLS -> cell COLS l i j = Some v -> cell COLS l' i j = Some v' -> times_pow2 (e i j) v v'.

(** the units: number i of the state is multiplied by 2^(u_x i), component i of control input k by 2^(u_c k i), of observation k by 2^(u_o k i) *)
Record units := { u_x : nat -> Z; u_c : nat -> nat -> Z; u_o : nat -> nat -> Z }.
Variables (n : nat) (U : units).
Notation ex i := (u_x U i).
Local Open Scope Z_scope.
Definition kf_scaled (f f' : kalman spec_float) : Prop :=
  scaled n n (fun i j => ex i - ex j) (kf_A f) (kf_A f') /\ scaled n 1 (fun i _ => ex i) (kf_x f) (kf_x f') /\
  scaled n n (fun i j => ex i + ex j) (kf_P f) (kf_P f') /\ scaled n n (fun i j => ex i + ex j) (kf_Q f) (kf_Q f').
Definition ct_scaled (m : nat) (ec : nat -> Z) (k k' : control spec_float) : Prop :=
  scaled n m (fun i j => ex i - ec j) (ct_B k) (ct_B k') /\ scaled m 1 (fun i _ => ec i) (ct_u k) (ct_u k') /\
  scaled m m (fun i j => ec i + ec j) (ct_Q k) (ct_Q k').
Definition ob_scaled (m : nat) (eo : nat -> Z) (o o' : observation spec_float) : Prop :=
  scaled m n (fun i j => eo i - ex j) (ob_H o) (ob_H o') /\ scaled m 1 (fun i _ => eo i) (ob_z o) (ob_z o') /\
  scaled m m (fun i j => eo i + eo j) (ob_R o) (ob_R o').
(** the same filter, controls and observations in the other units *)
Definition world_scaled (w w' : world spec_float) : Prop :=
  kf_scaled (w_kf w) (w_kf w') /\ length (w_ct w) = length (w_ct w') /\ length (w_ob w) = length (w_ob w') /\
  (forall i m m' k k', nth_error (w_ct w) i = Some (m, k) -> nth_error (w_ct w') i = Some (m', k') -> (1 <= m)%nat /\ m' = m /\ ct_scaled m (u_c U i) k k') /\
  (forall j m m' b b', nth_error (w_ob w) j = Some (m, b) -> nth_error (w_ob w') j = Some (m', b') -> m' = m /\ ob_scaled m (u_o U j) b b').
(** the closure of the second program does what that of the first does, in the other units *)
Definition closure_scaled (m : nat) (e : nat -> Z) (h h' : list spec_float -> list spec_float -> res (list spec_float)) : Prop :=
  forall x x' y y' out out', scaled n 1 (fun i _ => ex i) x x' -> h x y = Ok out -> h' x' y' = Ok out' -> scaled m 1 (fun i _ => e i) out out'.
(** a list of the same length written to both *)
Definition put_scaled (R C : nat) (e : nat -> nat -> Z) (l l' : list spec_float) : Prop := length l = length l' /\ scaled R C e l l'.
(** the same call, in the other units; [cd], [od] are the dimensions of the controls and observations *)
Definition op_scaled (cd od : list nat) (o o' : op spec_float) : Prop :=
  match o, o' with
  | OPredict, OPredict => True
  | OPredictTuned l, OPredictTuned l' => times_pow2 0 l l'
  | OPredictNonlinear h, OPredictNonlinear h' => closure_scaled n (fun i => ex i) h h'
  | OPredictTunedNonlinear l h, OPredictTunedNonlinear l' h' => times_pow2 0 l l' /\ closure_scaled n (fun i => ex i) h h'
  | OControl i, OControl i' => i' = i
  | OCorrect j, OCorrect j' => j' = j
  | OCorrectNonlinear j h, OCorrectNonlinear j' h' => j' = j /\ forall m, nth_error od j = Some m -> closure_scaled m (u_o U j) h h'
  | OSetA l, OSetA l' => put_scaled n n (fun i j => ex i - ex j) l l'
  | OSetX l, OSetX l' => put_scaled n 1 (fun i _ => ex i) l l'
  | OSetP l, OSetP l' => put_scaled n n (fun i j => ex i + ex j) l l'
  | OSetQ l, OSetQ l' => put_scaled n n (fun i j => ex i + ex j) l l'
  | OSetB i l, OSetB i' l' => i' = i /\ forall m, nth_error cd i = Some m -> put_scaled n m (fun a b => ex a - u_c U i b) l l'
  | OSetU i l, OSetU i' l' => i' = i /\ forall m, nth_error cd i = Some m -> put_scaled m 1 (fun a _ => u_c U i a) l l'
  | OSetCQ i l, OSetCQ i' l' => i' = i /\ forall m, nth_error cd i = Some m -> put_scaled m m (fun a b => u_c U i a + u_c U i b) l l'
  | OSetH j l, OSetH j' l' => j' = j /\ forall m, nth_error od j = Some m -> put_scaled m n (fun a b => u_o U j a - ex b) l l'
  | OSetZ j l, OSetZ j' l' => j' = j /\ forall m, nth_error od j = Some m -> put_scaled m 1 (fun a _ => u_o U j a) l l'
  | OSetR j l, OSetR j' l' => j' = j /\ forall m, nth_error od j = Some m -> put_scaled m m (fun a b => u_o U j a + u_o U j b) l l'
  | _, _ => False
  end.
End Units.

(** every correction of the run could decompose its innovation covariance *)
Fixpoint all_decomposed {T} (c : cfg) (N : num T) (n : nat) (w : world T) (os : list (op T)) : Prop :=
  match os with
  | nil => True
  | o :: os => forall w', step c N n w o = Ok w' ->
      match o with
      | OCorrect j | OCorrectNonlinear j _ =>
          match nth_error (w_ob w) j, nth_error (w_ob w') j with
          | Some (m, b), Some (_, b') =>
              decomposed N n m b b' (w_kf w)
          | _, _ => True
          end
      | _ => True
      end /\ all_decomposed c N n w' os
  end.
