(** * Lemmas behind the examples and refutations of PropMatrix.v *)
From Coq Require Import Lia.
From Verif Require Import Spec Matrix Filter Extended SpecFilter Wp Kernels Access Chol Inv FilterGen MatMain ExampleData.

Lemma bad_column_witness : forall c, (4 <= imax c)%Z ->
  exists (m : list Z), valid c 2 2 m /\ length m = 4 /\ get_at c 2 m 0 2 = get_at c 2 m 1 0 /\ get_at c 2 m 0 2 = Ok 3%Z.
Proof.
  intros c H. exists [1; 2; 3; 4]%Z.
  assert (V : valid c 2 2 [1; 2; 3; 4]%Z) by (split; [simpl; lia|exact H]).
  split; [exact V|]. split; [reflexivity|].
  assert (E : get_at c 2 [1; 2; 3; 4]%Z 0 2 = get_at c 2 [1; 2; 3; 4]%Z 1 0) by (apply (bad_column_aliases c 2 2 _ 0 0 V); lia).
  split; [exact E|]. rewrite E. destruct (get_at_cell c 2 2 _ 1 0 V) as (v & C1 & ->); try lia. inversion C1; reflexivity.
Qed.

Lemma bad_row_witness : exists (m : list Z), valid cfg64 2 2 m /\ length m = 4 /\ exists e, get_at cfg64 2 m 2 0 = Panic e.
Proof.
  exists [1; 2; 3; 4]%Z. assert (V : valid cfg64 2 2 [1; 2; 3; 4]%Z) by (apply valid64; reflexivity).
  split; [exact V|]. split; [reflexivity|].
  destruct (bad_row_rejected cfg64 2 2 [1; 2; 3; 4]%Z 2 0 0%Z (proj2 V)) as [H _]; auto.
Qed.

Lemma get_row_copy_witness : forall c, (4 <= imax c)%Z ->
  exists (data out : list Z), valid c 2 2 data /\ get_row_copy c 2 data 1 [0; 0]%Z = Ok out /\
    nth_error out 0 <> cell 2 data 1 0 /\ nth_error out 1 <> cell 2 data 1 1.
Proof.
  intros c H. exists [1; 2; 3; 4]%Z, [2; 3]%Z.
  assert (V : valid c 2 2 [1; 2; 3; 4]%Z) by (split; [simpl; lia|exact H]).
  assert (W : valid c 2 1 [0; 0]%Z) by (split; [simpl; lia|unfold slice_ok; simpl; lia]).
  split; [exact V|].
  pose proof (get_row_copy_cellwise c 2 2 [1; 2; 3; 4]%Z 1 [0; 0]%Z ltac:(lia) ltac:(lia) V W) as E.
  destruct (get_row_copy c 2 [1; 2; 3; 4]%Z 1 [0; 0]%Z) as [out|e].
  - destruct E as (L & E & _). split; [|unfold cell; simpl; split; congruence].
    pose proof (E 0 0 0%Z ltac:(lia) ltac:(lia) eq_refl) as E0. pose proof (E 1 0 0%Z ltac:(lia) ltac:(lia) eq_refl) as E1.
    unfold cell in E0, E1. simpl in *. destruct out as [|u [|v [|]]]; simpl in *; try discriminate. congruence.
  - destruct E as (_ & i & j & v & Hi & Hj & _ & Hn). exfalso.
    destruct i as [|[|i]]; simpl in Hn; try discriminate; lia.
Qed.

Lemma set_all_overruns : exists (m : list Z) p, valid cfg64 1 1 m /\ 1 * 1 <= p /\ nth_error (set_all m 7%Z) p <> nth_error m p.
Proof. exists [1; 2]%Z, 1. split; [apply valid64; reflexivity|]. split; [simpl; lia|]. simpl. discriminate. Qed.

Lemma chol_example : valid cfg64 2 2 [4; 2; 2; 5]%Z /\ valid cfg64 2 2 [4; 2; 77; 5]%Z /\
  (forall i j, i <= j < 2 -> cell 2 [4; 2; 2; 5]%Z i j = cell 2 [4; 2; 77; 5]%Z i j).
Proof.
  split; [apply valid64; reflexivity|]. split; [apply valid64; reflexivity|].
  intros [|[|i]] [|[|j]]; simpl; try lia; reflexivity.
Qed.

(** an 8-bit machine, so that the calls can be computed *)
Definition cfg8 : cfg := {| usize_max := 255; overflow_checks := true; debug_assertions := true; no_assert := false |}.
Definition z_num : num Z := {| n_zero := 0%Z; n_one := 1%Z; o_add := fun a b => Some (a + b)%Z; o_sub := fun a b => Some (a - b)%Z; o_mul := fun a b => Some (a * b)%Z;
  o_neg := fun a => Some (- a)%Z; o_recip := fun _ => None; o_sqrt := fun a => Some (Z.sqrt a); n_le := Z.leb; n_sum0 := 0%Z |}.
Lemma valid8 {T} R C (l : list T) : Nat.leb (R * C) (length l) = true -> Nat.leb (length l) 100 = true -> valid cfg8 R C l.
Proof. intros H1 H2. split; [apply Nat.leb_le; exact H1|]. apply Nat.leb_le in H2. unfold slice_ok, imax, umaxZ. change (Z.of_nat (usize_max cfg8) / 2)%Z with 127%Z. lia. Qed.
Lemma copy_example : valid cfg8 2 3 [1; 2; 3; 4; 5; 6]%Z /\ valid cfg8 2 1 [0; 0]%Z /\ valid cfg8 3 1 [0; 0; 0]%Z /\
  get_column_copy cfg8 2 3 [1; 2; 3; 4; 5; 6]%Z 1 [0; 0]%Z = Ok [2; 5]%Z /\
  get_row_copy cfg8 3 [1; 2; 3; 4; 5; 6]%Z 0 [0; 0; 0]%Z = Ok [1; 2; 3]%Z /\
  get_row_copy cfg8 3 [1; 2; 3; 4; 5; 6]%Z 1 [0; 0; 0]%Z = Ok [3; 4; 5]%Z.
Proof. split; [apply valid8; reflexivity|]. split; [apply valid8; reflexivity|]. split; [apply valid8; reflexivity|]. vm_compute. auto. Qed.
Lemma buffered_example : valid cfg8 2 3 [1; 2; 3; 4; 5; 6]%Z /\ valid cfg8 3 2 [1; 0; 0; 1; 1; 1]%Z /\ valid cfg8 2 2 [9; 9; 9; 9; 7]%Z /\ valid cfg8 3 1 [8; 8; 8]%Z /\ length [8; 8; 8]%Z = 3 /\
  mult cfg8 z_num 2 3 2 [1; 2; 3; 4; 5; 6]%Z [1; 0; 0; 1; 1; 1]%Z [9; 9; 9; 9; 7]%Z = Ok [4; 5; 10; 11; 7]%Z /\
  exists aux, mult_buffered cfg8 z_num 2 3 2 [1; 2; 3; 4; 5; 6]%Z [1; 0; 0; 1; 1; 1]%Z [9; 9; 9; 9; 7]%Z [8; 8; 8]%Z = Ok ([4; 5; 10; 11; 7]%Z, aux).
Proof.
  split; [apply valid8; reflexivity|]. split; [apply valid8; reflexivity|]. split; [apply valid8; reflexivity|]. split; [apply valid8; reflexivity|].
  split; [reflexivity|]. split; [vm_compute; reflexivity|]. eexists. vm_compute. reflexivity.
Qed.
Lemma elementwise_example : valid cfg8 2 2 [1; 2; 3; 4; 5]%Z /\ valid cfg8 2 2 [10; 20; 30; 40; 50]%Z /\
  m_sub cfg8 z_num 2 2 [1; 2; 3; 4; 5]%Z [10; 20; 30; 40; 50]%Z [0; 0; 0; 0; 7]%Z = Ok [-9; -18; -27; -36; 7]%Z /\
  add_inplace_a cfg8 z_num 2 2 [1; 2; 3; 4; 5]%Z [10; 20; 30; 40; 50]%Z = Ok [11; 22; 33; 44; 5]%Z /\
  sub_inplace_b cfg8 z_num 2 2 [1; 2; 3; 4; 5]%Z [10; 20; 30; 40; 50]%Z = Ok [-9; -18; -27; -36; 50]%Z /\
  copy_to cfg8 2 2 [1; 2; 3; 4; 5]%Z [10; 20; 30; 40; 50]%Z = Ok [1; 2; 3; 4; 50]%Z.
Proof. split; [apply valid8; reflexivity|]. split; [apply valid8; reflexivity|]. vm_compute. auto. Qed.
Lemma fill_example : valid cfg8 2 2 [1; 2; 3; 4; 5]%Z /\ 2 * 2 <= length [1; 2; 3; 4; 5]%Z /\
  make_comatrix cfg8 2 6%Z 8%Z [1; 2; 3; 4; 5]%Z = Ok [6; 8; 8; 6; 5]%Z /\ set_diagonal_to_scalar cfg8 2 6%Z [1; 2; 3; 4; 5]%Z = Ok [6; 2; 3; 6; 5]%Z /\
  set_symmetric cfg8 2 [1; 2; 3; 4; 5]%Z 0 1 9%Z = Ok [1; 9; 9; 4; 5]%Z.
Proof. split; [apply valid8; reflexivity|]. split; [simpl; lia|]. vm_compute. auto. Qed.
Lemma ct_empty_example : ct_valid cfg8 2 0 (mk_ctl (@nil Z) [] [] []) /\ (2 * 0 = 0 \/ 0 = 0) /\ ct_valid cfg8 0 2 (mk_ctl (@nil Z) [1; 2]%Z [1; 0; 0; 1]%Z []) /\ (0 * 2 = 0 \/ 2 = 0).
Proof. split; [|split; [auto|split; [|auto]]]; (split; [|split; [|split]]); apply valid8; reflexivity. Qed.
Lemma kernels_example : valid cfg8 2 3 [1; 2; 3; 4; 5; 6; 7]%Z /\ valid cfg8 3 2 [1; 0; 0; 1; 1; 1]%Z /\ valid cfg8 2 2 [9; 9; 9; 9; 7]%Z /\ valid cfg8 3 1 [8; 8; 8]%Z.
Proof. split; [apply valid8; reflexivity|]. split; [apply valid8; reflexivity|]. split; apply valid8; reflexivity. Qed.
