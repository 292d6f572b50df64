(** * Concrete data used by the examples beside the theorems *)
From Coq Require Import Lia.
From Verif Require Import Spec Matrix Filter Extended SpecFilter History SpecGen.

(** a 64-bit debug build, and a release build *)
Definition cfg64 : cfg := {| usize_max := Z.to_nat (2 ^ 64 - 1); overflow_checks := true; debug_assertions := true; no_assert := false |}.
Definition cfg64r : cfg := {| usize_max := Z.to_nat (2 ^ 64 - 1); overflow_checks := false; debug_assertions := false; no_assert := false |}.

Lemma imax64 : imax cfg64 = (2 ^ 63 - 1)%Z.
Proof. unfold imax, umaxZ. cbn [usize_max cfg64]. rewrite Z2Nat.id by lia. reflexivity. Qed.
Lemma imax64r : imax cfg64r = (2 ^ 63 - 1)%Z.
Proof. unfold imax, umaxZ. cbn [usize_max cfg64r]. rewrite Z2Nat.id by lia. reflexivity. Qed.

Lemma valid64 {T} R C (l : list T) : Nat.leb (R * C) (length l) = true -> Nat.leb (length l) 1000 = true -> valid cfg64 R C l.
Proof.
  intros H1 H2. apply Nat.leb_le in H1, H2. split; [exact H1|]. unfold slice_ok. rewrite imax64. lia.
Qed.
Lemma valid64r {T} R C (l : list T) : Nat.leb (R * C) (length l) = true -> Nat.leb (length l) 1000 = true -> valid cfg64r R C l.
Proof.
  intros H1 H2. apply Nat.leb_le in H1, H2. split; [exact H1|]. unfold slice_ok. rewrite imax64r. lia.
Qed.

(** any build with at least 16-bit pointers *)
Lemma valid_any {T} c R C (l : list T) : (1000 <= imax c)%Z -> Nat.leb (R * C) (length l) = true -> Nat.leb (length l) 1000 = true -> valid c R C l.
Proof. intros Hc H1 H2. apply Nat.leb_le in H1, H2. split; [exact H1|]. unfold slice_ok. lia. Qed.

(** a 16-bit microcontroller build in release mode with the feature no_assert *)
Definition cfg16 : cfg := {| usize_max := Z.to_nat (2 ^ 16 - 1); overflow_checks := false; debug_assertions := false; no_assert := true |}.
Lemma imax16 : imax cfg16 = (2 ^ 15 - 1)%Z.
Proof. unfold imax, umaxZ. cbn [usize_max cfg16]. rewrite Z2Nat.id by lia. reflexivity. Qed.

(** integers as an element type (reciprocal and square root panic unless they are exact for 1 and 0) *)
Definition z_num : num Z := {|
  n_zero := 0%Z; n_one := 1%Z;
  o_add := fun a b => Some (a + b)%Z; o_sub := fun a b => Some (a - b)%Z; o_mul := fun a b => Some (a * b)%Z;
  o_neg := fun a => Some (- a)%Z;
  o_recip := fun a => if (a =? 1)%Z then Some 1%Z else None;
  o_sqrt := fun a => if (Z.sqrt a * Z.sqrt a =? a)%Z then Some (Z.sqrt a) else None;
  n_le := Z.leb; n_sum0 := 0%Z |}.

Section Data.
Context {T : Type} (z a b d e : T).
(** a filter with two states, a control with one input, observations of one and of two components; P = [[d,a],[a,d]] *)
Definition ex_kf : kalman T := mk_kalman [a; a; z; a] [a; b] [d; a; a; d] [a; z; z; a] [z; z] [z; z; z; z].
Definition ex_ct : control T := mk_ctl [a; b] [e] [a] [z; z].
Definition ex_ob1 : observation T := mk_obs [a; z] [e] [a] [z] [z] [z; z] [z] [z; z] [z; z] [z; z; z; z].
Definition ex_ob2 : observation T := mk_obs [a; z; z; a] [e; b] [d; a; a; d] [z; z] [z; z; z; z] [z; z; z; z] [z; z; z; z] [z; z; z; z] [z; z; z; z] [z; z; z; z].
Definition ex_world : world T := mk_world ex_kf [(1, ex_ct)] [(1, ex_ob1); (2, ex_ob2)].

Lemma ex_kf_valid : kf_valid cfg64 2 ex_kf.
Proof. red. repeat match goal with |- _ /\ _ => split end; apply valid64; reflexivity. Qed.
Lemma ex_ct_valid : ct_valid cfg64 2 1 ex_ct.
Proof. red. repeat match goal with |- _ /\ _ => split end; apply valid64; reflexivity. Qed.
Lemma ex_ob1_valid : ob_valid cfg64 2 1 ex_ob1.
Proof. red. repeat match goal with |- _ /\ _ => split end; apply valid64; reflexivity. Qed.
Lemma ex_ob2_valid : ob_valid cfg64 2 2 ex_ob2.
Proof. red. repeat match goal with |- _ /\ _ => split end; apply valid64; reflexivity. Qed.
Lemma ex_world_ok : world_ok cfg64 2 ex_world.
Proof.
  split; [lia|]. split; [|repeat constructor].
  split; [exact ex_kf_valid|]. split.
  - apply Forall_cons; [exact ex_ct_valid|apply Forall_nil].
  - apply Forall_cons; [exact ex_ob1_valid|]. apply Forall_cons; [exact ex_ob2_valid|apply Forall_nil].
Qed.
Lemma ex_world_any c : (1000 <= imax c)%Z -> world_ok c 2 ex_world.
Proof.
  intros Hc. split; [lia|]. split; [|repeat constructor].
  assert (V : forall R C (l : list T), Nat.leb (R * C) (length l) = true -> Nat.leb (length l) 1000 = true -> valid c R C l)
    by (intros; apply valid_any; auto).
  split; [red; repeat match goal with |- _ /\ _ => split end; apply V; reflexivity|]. split.
  - apply Forall_cons; [|apply Forall_nil]. red; repeat match goal with |- _ /\ _ => split end; apply V; reflexivity.
  - apply Forall_cons; [|apply Forall_cons; [|apply Forall_nil]]; red; repeat match goal with |- _ /\ _ => split end; apply V; reflexivity.
Qed.
End Data.
