(** * Assembled statements about matrix operations, any element type *)
From Coq Require Import Lia.
From Verif Require Import Spec Matrix Filter Extended SpecFilter Wp Kernels Access Chol Inv FilterGen.

Section MatMain.
Context {T : Type} (c : cfg) (N : num T).

Lemma cellwise_tail R C (old : list T) f r : cellwise R C old f r -> wp r (same_tail R C old) (fun _ => True).
Proof. destruct r; simpl; [intros (H1 & _ & H3); split; auto|auto]. Qed.

(** mult_buffered against mult *)
Lemma mult_buffered_same M K U (a b cm aux : list T) :
  1 <= K -> valid c M K a -> valid c K U b -> valid c M U cm -> valid c K 1 aux ->
  no_assert c = true \/ debug_assertions c = false \/ length aux = K ->
  rres (fun r cm' => fst r = cm') (mult_buffered c N M K U a b cm aux) (mult c N M K U a b cm).
Proof. intros HK Ha Hb Hc H1 H2. apply mult_buffered_mult; auto. split; auto. Qed.

(** the upper triangle decides *)
Lemma cholesky_upper n (A1 A2 : list T) : 1 <= n -> valid c n n A1 -> valid c n n A2 ->
  (forall i j, i <= j < n -> cell n A1 i j = cell n A2 i j) ->
  rres (fun r1 r2 => fst r1 = fst r2 /\ (fst r1 = true -> same_matrix n n (snd r1) (snd r2)))
    (cholesky_decompose_lower c N n n A1) (cholesky_decompose_lower c N n n A2).
Proof.
  intros Hn V1 V2 H.
  eapply rres_mono; [apply (cholesky_two_runs c N (upper n)); auto|].
  - intros p (i & j & -> & Hij). apply (H i j Hij).
  - intros [b1 l1] [b2 l2]; simpl. intros (E & _ & _ & _ & E2). split; [exact E|]. intros Hb p Hp.
    destruct (Nat.eq_dec n 0) as [->|Hn']; [lia|].
    specialize (E2 Hb (p / n) (p mod n)).
    assert (p / n < n) by (apply Nat.div_lt_upper_bound; lia).
    assert (p mod n < n) by (apply Nat.mod_upper_bound; lia).
    unfold cell in E2. replace (p / n * n + p mod n) with p in E2 by (rewrite (Nat.div_mod p n) at 1; lia). auto.
Qed.

(** the inverse does not depend on what the target held *)
Lemma invert_target n (m inv1 inv2 : list T) : 1 <= n -> valid c n n m -> valid c n n inv1 -> valid c n n inv2 ->
  rres (same_matrix n n) (invert_l_cholesky c N n m inv1) (invert_l_cholesky c N n m inv2).
Proof.
  intros Hn Vm V1 V2.
  eapply rres_mono; [apply (invert_two_runs c N (fun _ => False) n m m inv1 inv2); auto|].
  - intros p _. reflexivity.
  - intros p [].
  - simpl. intros a b (_ & _ & H) p Hp. apply H. right; exact Hp.
Qed.

Lemma cellwise_pure R C (old : list T) f r : (forall i j v, i < R -> j < C -> f i j v <> None) -> cellwise R C old f r ->
  wp r (same_tail R C old) (fun _ => False).
Proof.
  intros Hf H. destruct r as [l|e]; cbn [wp cellwise] in *.
  - destruct H as (L & _ & HT). split; auto.
  - destruct H as (_ & i & j & v & Hi & Hj & _ & Hn). exact (Hf i j v Hi Hj Hn).
Qed.

(** nothing writes past the logical matrix, and only element arithmetic can panic *)
Lemma no_overrun R C U n (a b out tgt aux : list T) (i j : nat) (v s : T) :
  valid c R C a ->
  (valid c C U b -> valid c R U out -> wp (mult c N R C U a b out) (same_tail R U out) (arith_only N)) /\
  (1 <= C -> valid c C U b -> valid c R U out -> valid c C 1 aux ->
     no_assert c = true \/ debug_assertions c = false \/ length aux = C ->
     wp (mult_buffered c N R C U a b out aux) (fun r => same_tail R U out (fst r)) (arith_only N)) /\
  (1 <= C -> valid c C 1 b -> valid c R 1 out -> wp (mult_rowvector c N R C a b out) (same_tail R 1 out) (arith_only N)) /\
  (1 <= C -> valid c C 1 b -> valid c R 1 out -> wp (multadd_rowvector c N R C a b out) (same_tail R 1 out) (arith_only N)) /\
  (valid c U C b -> valid c R U out -> wp (mult_transb c N R C U a b out) (same_tail R U out) (arith_only N)) /\
  (valid c U C b -> valid c R U out -> wp (multadd_transb c N R C U a b out) (same_tail R U out) (arith_only N)) /\
  (valid c U C b -> valid c R U out -> wp (multscale_transb c N s R C U a b out) (same_tail R U out) (arith_only N)) /\
  (valid c R C b -> valid c R C out -> wp (m_sub c N R C a b out) (same_tail R C out) (arith_only N)) /\
  (valid c R C b -> wp (add_inplace_a c N R C a b) (same_tail R C a) (arith_only N)) /\
  (valid c R C b -> wp (add_inplace_b c N R C a b) (same_tail R C b) (arith_only N)) /\
  (valid c R C b -> wp (sub_inplace_a c N R C a b) (same_tail R C a) (arith_only N)) /\
  (valid c R C b -> wp (sub_inplace_b c N R C a b) (same_tail R C b) (arith_only N)) /\
  (1 <= R -> 1 <= C -> valid c R C b -> wp (copy_to c R C a b) (same_tail R C b) (fun _ => False)) /\
  (1 <= R -> j < C -> valid c R 1 tgt -> wp (get_column_copy c R C a j tgt) (same_tail R 1 tgt) (fun _ => False)) /\
  (1 <= C -> i < R -> valid c C 1 tgt -> wp (get_row_copy c C a i tgt) (same_tail C 1 tgt) (fun _ => False)) /\
  (i < R -> j < C -> wp (set_at c C a i j v) (same_tail R C a) (fun _ => False)) /\
  (i < n -> j < n -> valid c n n tgt -> wp (set_symmetric c n tgt i j v) (same_tail n n tgt) (fun _ => False)) /\
  (valid c n n tgt -> wp (make_comatrix c n v s tgt) (same_tail n n tgt) (fun _ => False)) /\
  (valid c n n tgt -> wp (set_diagonal_to_scalar c n v tgt) (same_tail n n tgt) (fun _ => False)) /\
  (1 <= n -> valid c n n tgt -> wp (cholesky_decompose_lower c N n n tgt) (fun r => same_tail n n tgt (snd r)) (arith_only N)) /\
  (1 <= n -> valid c n n b -> valid c n n tgt -> wp (invert_l_cholesky c N n b tgt) (same_tail n n tgt) (arith_only N)).
Proof.
  intros Va.
  assert (K : forall R0 C0 (old : list T) r, wp r (okm c R0 C0 old) (arith_only N) -> wp r (same_tail R0 C0 old) (arith_only N))
    by (intros R0 C0 old r W; eapply wp_mono; [exact W|intros a0 H0; apply H0|auto]).
  repeat match goal with |- _ /\ _ => split end; intros;
    try (apply K; first [ apply mult_wp | apply mult_rowvector_wp | apply multadd_rowvector_wp | apply mult_transb_wp | apply multadd_transb_wp
      | apply multscale_transb_wp | apply add_inplace_a_wp | apply add_inplace_b_wp | apply sub_inplace_a_wp | apply sub_inplace_b_wp
      | apply invert_wp ]; assumption).
  - pose proof (mult_buffered_same R C U a b out aux H Va H0 H1 H2 H3) as E.
    assert (W : wp (mult c N R C U a b out) (okm c R U out) (arith_only N)) by (apply mult_wp; auto).
    destruct (mult_buffered c N R C U a b out aux), (mult c N R C U a b out); simpl in *; subst; [apply W|contradiction|contradiction|apply W].
  - apply K. eapply cellwise_wp; [assumption| |apply m_sub_cellwise; assumption].
    intros HN i0 j0 v0 Hi Hj. apply obind_total; [apply (cell_total c R C); assumption|]. intros x. apply obind_total; [apply (cell_total c R C); assumption|].
    intros y. apply never_sub; exact HN.
  - eapply cellwise_pure; [|apply copy_to_cellwise; assumption]. intros. apply (cell_total c R C); assumption.
  - eapply cellwise_pure; [|apply get_column_copy_cellwise; assumption]. intros. apply (cell_total c R C); assumption.
  - eapply cellwise_pure; [|apply (get_row_copy_cellwise c R C); assumption]. intros i0 j0 v0 Hi Hj. destruct Va as [Va _].
    apply nth_error_Some. nia.
  - destruct (set_get c R C a i j v Va H H0) as (m' & -> & L & _ & _ & Tl). split; auto.
  - destruct (set_symmetric_spec c n tgt i j v H1 H H0) as (m' & -> & L & _ & _ & _ & Tl). split; auto.
  - eapply cellwise_pure; [|apply make_comatrix_cellwise; assumption]. discriminate.
  - eapply cellwise_pure; [|apply set_diagonal_cellwise; assumption]. discriminate.
  - eapply wp_mono; [apply cholesky_wp; assumption| |auto]. intros [b0 l] W. apply W.
Qed.

End MatMain.

(** ** empty matrices *)
Section Empty.
Context {T : Type} (c : cfg) (N : num T).
Lemma nth_error_nil_any i : nth_error (@nil T) i = None. Proof. destruct i; reflexivity. Qed.
Lemma umul_0_l b : umul c 0 b = Ok 0. Proof. reflexivity. Qed.

Lemma predict_no_states (f : kalman T) : kf_x f = [] -> predict c N 0 f = Panic IndexOOB.
Proof. intros H. unfold predict, predict_x, mult_rowvector, gen_mult_rowvector. rewrite H. reflexivity. Qed.
Lemma mult_rowvector_empty R C (a x out : list T) : x = [] -> mult_rowvector c N R C a x out = Panic IndexOOB.
Proof. intros ->. reflexivity. Qed.
Lemma correct_no_states m (o : observation T) (f : kalman T) : kf_x f = [] -> correct c N 0 m o f = Panic IndexOOB.
Proof. intros H. unfold correct, obs_correct. rewrite H, mult_rowvector_empty by reflexivity. reflexivity. Qed.
Lemma control_empty n m (k : control T) (f : kalman T) : n * m = 0 \/ m = 0 -> ct_valid c n m k -> control_ c N n m k f = Ok (k, f).
Proof.
  intros H (VB & Vu & _). unfold control_, apply_control.
  assert (E1 : is_empty c m 1 = Ok (m * 1 =? 0)).
  { unfold is_empty, umul. destruct (valid_bound _ _ _ _ Vu). replace (m * 1 <=? usize_max c) with true; auto.
    symmetry; apply Nat.leb_le; lia. }
  assert (E2 : is_empty c n m = Ok (n * m =? 0)).
  { unfold is_empty, umul. destruct (valid_bound _ _ _ _ VB). replace (n * m <=? usize_max c) with true; auto.
    symmetry; apply Nat.leb_le; lia. }
  rewrite E1. simpl. destruct f. destruct (m * 1 =? 0) eqn:E; simpl; auto.
  rewrite E2. replace (n * m =? 0) with true; simpl; auto.
  symmetry; apply Nat.eqb_eq. destruct H; auto. subst; simpl in E; discriminate.
Qed.
Lemma copy_to_empty COLS (a tgt : list T) : a = [] -> exists e, copy_to c 0 COLS a tgt = Panic e.
Proof.
  intros ->. unfold copy_to, m_len. rewrite umul_0_l. simpl.
  unfold usub. simpl. destruct (overflow_checks c); simpl; [eauto|].
  unfold rd. rewrite nth_error_nil_any. simpl. eauto.
Qed.
End Empty.
