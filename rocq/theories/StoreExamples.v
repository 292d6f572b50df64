(** * Concrete cases for PropStorage.v *)
From Coq Require Import Lia.
From Verif Require Import Spec Matrix Storage Filter Extended Builder SpecFilter History SpecGen SpecStore StoreProof FloatNum SpecFloats FloatGen FloatWit ExampleData.

Lemma small_ok {T} c (l : list T) : 255 <= usize_max c -> length l <= 100 -> slice_ok c l.
Proof.
  intros Hc H. unfold slice_ok, imax, umaxZ. assert (E : (100 <= Z.of_nat (usize_max c) / 2)%Z) by (apply Z.div_le_lower_bound; lia). lia.
Qed.
Lemma small_alloc c k : 255 <= usize_max c -> k <= 100 -> allocatable c k.
Proof.
  intros Hc H. unfold allocatable, imax, umaxZ. assert (E : (100 <= Z.of_nat (usize_max c) / 2)%Z) by (apply Z.div_le_lower_bound; lia). lia.
Qed.

(** a 2x3 matrix from six elements is accepted, from five or seven it is not; a buffer wrapper accepts seven *)
Lemma ex_constructors {T} (c : cfg) (v : T) : 255 <= usize_max c -> no_assert c = false -> debug_assertions c = true ->
  boxed_new c 2 3 (repeat v 6) = Ok (repeat v 6) /\ boxed_new c 2 3 (repeat v 7) = Panic AssertFailed /\ array_new c 2 3 (repeat v 5) = Panic AssertFailed /\
  buffer_from c 2 3 (repeat v 7) = Ok (repeat v 7) /\ buffer_from c 2 3 (repeat v 5) = Panic AssertFailed.
Proof.
  intros Hc Hn Hd.
  pose proof (proj1 (checked_new c 2 3 (repeat v 6) Hn ltac:(lia))) as H1. pose proof (proj1 (checked_new c 2 3 (repeat v 7) Hn ltac:(lia))) as H2.
  pose proof (proj2 (checked_new c 2 3 (repeat v 5) Hn ltac:(lia))) as H3. pose proof (wrapper_from c 2 3 (repeat v 7) Hn Hd ltac:(lia)) as H4.
  pose proof (wrapper_from c 2 3 (repeat v 5) Hn Hd ltac:(lia)) as H5. repeat split; assumption.
Qed.

(** a freshly built filter with three states, a control with two inputs, and an observation *)
Lemma ex_fresh (c : cfg) : 255 <= usize_max c -> exists f k o,
  build_filter c (S754_zero false) 3 = Ok f /\ build_control c (S754_zero false) 3 2 = Ok k /\ build_observation c (S754_zero false) 3 1 = Ok o /\
  let w := mk_world f [(2, k)] [(1, o)] in world_allocatable c 3 w /\ world_fresh (S754_zero false) 3 w /\ Forall time_update [@OPredict spec_float; OControl 0; OPredict].
Proof.
  intros Hc.
  destruct (build_filter_ok c (S754_zero false) 3) as (f & Ef & Ff); [apply small_alloc; [exact Hc|cbn; lia]|].
  destruct (build_control_ok c (S754_zero false) 3 2) as (k & Ek & Fk); [apply small_alloc; [exact Hc|cbn; lia]|apply small_alloc; [exact Hc|cbn; lia]|].
  destruct (build_observation_ok c (S754_zero false) 3 1) as (o & Eo & Fo);
    [apply small_alloc; [exact Hc|cbn; lia]|apply small_alloc; [exact Hc|cbn; lia]|apply small_alloc; [exact Hc|cbn; lia]|].
  exists f, k, o. split; [exact Ef|]. split; [exact Ek|]. split; [exact Eo|]. cbv zeta. split; [|split].
  - split; [apply small_alloc; [exact Hc|cbn; lia]|]. split; apply Forall_cons; try apply Forall_nil; cbn [fst];
      (split; apply small_alloc; [exact Hc|cbn; lia|exact Hc|cbn; lia]).
  - split; [exact Ff|]. split; apply Forall_cons; try apply Forall_nil; assumption.
  - apply Forall_cons; [exact I|]. apply Forall_cons; [exact I|]. apply Forall_cons; [exact I|apply Forall_nil].
Qed.

(** the 16-bit value of [h] in C48_wrapped: 2 * 2^15 = 65536 wraps to 0 *)
Lemma ex_wrapped : exists c h, no_assert c = false /\ overflow_checks c = false /\ usize_max c + 1 = 2 * h /\ 1 <= h.
Proof. exists {| usize_max := 255; overflow_checks := false; debug_assertions := false; no_assert := false |}, 128. cbn [no_assert overflow_checks usize_max]. repeat split; lia. Qed.

Lemma ex_index {T} (c : cfg) (a b d e f g h : T) : 255 <= usize_max c -> valid c 2 3 [a; b; d; e; f; g; h] /\
  nalgebra_slice_len 2 3 = 6 /\ nalgebra_offset 2 3 1 2 = 5 /\ index_get [a; b; d; e; f; g; h] (1 * 3 + 2) = Ok g /\
  index_set [a; b; d; e; f; g; h] (1 * 3 + 0) a = Ok [a; b; d; a; f; g; h].
Proof. intros Hc. split; [apply valid_tiny; auto|]. repeat split; reflexivity. Qed.
Lemma ex_stale (c : cfg) (sz : bool) : 255 <= usize_max c -> never_panics (f32_num sz) /\ kf_valid c 1 (kf1 (f32 1 0) (f32 2 0) (f32 2 0)) /\
  ob_valid c 1 1 (ob1 (f32 1 0) (f32 2 0)) /\ closure_ok c (f32_num sz) 1 1 writes_nothing.
Proof.
  intros Hc. split; [apply sf_never_panics|]. split; [apply kf1_valid, Hc|]. split; [apply ob1_valid, Hc|].
  intros x out _ V. exact V.
Qed.
