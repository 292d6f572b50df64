(** * Rust semantics used by the model: panics, machine integers, slices, loops.

    Nothing in this file models one particular function of the repository; it
    models the Rust constructs the repository's functions are written with. *)
From Coq Require Export List Arith ZArith Bool.
Export ListNotations.

(** Why a call did not return.  [OutOfFuel] never happens in Rust: it marks a
    [while] loop of the model whose fuel was too small, and every theorem
    excludes it by naming the result. *)
Inductive panic : Set :=
| IndexOOB        (* slice index out of range *)
| UsizeOverflow   (* usize + - * overflow with overflow checks on *)
| IsizeOverflow   (* isize + - * overflow with overflow checks on *)
| AssertFailed    (* assert! / debug_assert! *)
| NumPanic        (* the element type's own arithmetic panicked *)
| OutOfFuel.

Inductive res (A : Type) : Type :=
| Ok (a : A)
| Panic (p : panic).
Arguments Ok {A} a.
Arguments Panic {A} p.

Definition bind {A B} (m : res A) (k : A -> res B) : res B :=
  match m with Ok a => k a | Panic p => Panic p end.

Notation "x <- m ;; k" := (bind m (fun x => k))
  (at level 61, m at next level, right associativity).
Notation "' p <- m ;; k" := (bind m (fun x => let 'p := x in k))
  (at level 61, p pattern, m at next level, right associativity).

(** Build configuration: pointer width ([usize_max] = usize::MAX), whether integer
    overflow panics (debug) or wraps (release), whether [debug_assert!] is
    compiled in, and the crate's feature [no_assert]. *)
Record cfg : Set := {
  usize_max : nat;
  overflow_checks : bool;
  debug_assertions : bool;
  no_assert : bool
}.

(** ** usize *)
Definition uadd (c : cfg) (a b : nat) : res nat :=
  if a + b <=? usize_max c then Ok (a + b)
  else if overflow_checks c then Panic UsizeOverflow
  else Ok ((a + b) mod (S (usize_max c))).

Definition umul (c : cfg) (a b : nat) : res nat :=
  if a * b <=? usize_max c then Ok (a * b)
  else if overflow_checks c then Panic UsizeOverflow
  else Ok ((a * b) mod (S (usize_max c))).

Definition usub (c : cfg) (a b : nat) : res nat :=
  if b <=? a then Ok (a - b)
  else if overflow_checks c then Panic UsizeOverflow
  else Ok (a + S (usize_max c) - b).

(** ** isize: two's complement of the same width *)
Definition umaxZ (c : cfg) : Z := Z.of_nat (usize_max c).
Definition imax (c : cfg) : Z := (umaxZ c / 2)%Z.
Definition imin (c : cfg) : Z := (- imax c - 1)%Z.

(** [x as isize] and [x as usize] *)
Definition as_isize (c : cfg) (u : nat) : Z :=
  if (Z.of_nat u <=? imax c)%Z then Z.of_nat u else (Z.of_nat u - umaxZ c - 1)%Z.
Definition as_usize (c : cfg) (i : Z) : nat := Z.to_nat (i mod (umaxZ c + 1))%Z.

Definition iwrap (c : cfg) (i : Z) : Z := as_isize c (as_usize c i).
Definition iop (c : cfg) (i : Z) : res Z :=
  if ((imin c <=? i) && (i <=? imax c))%Z then Ok i
  else if overflow_checks c then Panic IsizeOverflow
  else Ok (iwrap c i).
Definition iadd (c : cfg) (a b : Z) : res Z := iop c (a + b)%Z.
Definition isub (c : cfg) (a b : Z) : res Z := iop c (a - b)%Z.
Definition imul (c : cfg) (a b : Z) : res Z := iop c (a * b)%Z.

(** ** Assertions *)
Definition assert_ (b : bool) : res unit := if b then Ok tt else Panic AssertFailed.
(** [#[cfg(not(feature = "no_assert"))] assert!(b)] *)
Definition fassert (c : cfg) (b : bool) : res unit :=
  if no_assert c then Ok tt else assert_ b.
(** [#[cfg(not(feature = "no_assert"))] debug_assert!(b)] *)
Definition dassert (c : cfg) (b : bool) : res unit :=
  if no_assert c then Ok tt else if debug_assertions c then assert_ b else Ok tt.

(** ** Slices *)
Fixpoint upd {A} (l : list A) (i : nat) (v : A) : list A :=
  match l, i with
  | [], _ => []
  | _ :: l', 0 => v :: l'
  | a :: l', S i' => a :: upd l' i' v
  end.

(** [buf[i]] as an rvalue, [buf[i] = v] *)
Definition rd {A} (l : list A) (i : nat) : res A :=
  match nth_error l i with Some v => Ok v | None => Panic IndexOOB end.
Definition wr {A} (l : list A) (i : nat) (v : A) : res (list A) :=
  if i <? length l then Ok (upd l i v) else Panic IndexOOB.

(** ** Loops *)
(** [for i in lo..lo+cnt] *)
Fixpoint for_up {S} (cnt lo : nat) (s : S) (body : nat -> S -> res S) : res S :=
  match cnt with
  | 0 => Ok s
  | Datatypes.S cnt' => s' <- body lo s ;; for_up cnt' (Datatypes.S lo) s' body
  end.
(** [for i in lo..hi] *)
Definition for_range {S} (lo hi : nat) (s : S) (body : nat -> S -> res S) : res S :=
  for_up (hi - lo) lo s body.

(** [for i in (0..n).rev()] *)
Fixpoint for_down {S} (n : nat) (s : S) (body : nat -> S -> res S) : res S :=
  match n with
  | 0 => Ok s
  | Datatypes.S n' => s' <- body n' s ;; for_down n' s' body
  end.

(** [while cond { body }] *)
Fixpoint while_ {S} (fuel : nat) (cond : S -> bool) (body : S -> res S) (s : S) : res S :=
  match fuel with
  | 0 => Panic OutOfFuel
  | Datatypes.S fuel' => if cond s then s' <- body s ;; while_ fuel' cond body s' else Ok s
  end.

(** Loops whose body may [return] from the enclosing function. *)
Inductive ctl (S R : Type) : Type :=
| Next (s : S)
| Return (r : R).
Arguments Next {S R} s.
Arguments Return {S R} r.

Fixpoint for_up_ret {S R} (cnt lo : nat) (s : S) (body : nat -> S -> res (ctl S R)) : res (ctl S R) :=
  match cnt with
  | 0 => Ok (Next s)
  | Datatypes.S cnt' =>
      o <- body lo s ;;
      match o with
      | Next s' => for_up_ret cnt' (Datatypes.S lo) s' body
      | Return r => Ok (Return r)
      end
  end.
Definition for_range_ret {S R} (lo hi : nat) (s : S) (body : nat -> S -> res (ctl S R)) : res (ctl S R) :=
  for_up_ret (hi - lo) lo s body.
