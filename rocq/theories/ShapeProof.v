(** * Shape queries and vector accessors *)
From Coq Require Import Lia.
From Verif Require Import Spec Matrix Wp Kernels Access.

Section Shape.
Context {T : Type} (c : cfg).

Lemma len_ok R C : R * C <= usize_max c -> m_len c R C = Ok (R * C).
Proof. apply umul_ok. Qed.
Lemma is_valid_ok R C (m : list T) : R * C <= usize_max c ->
  exists b, is_valid c R C m = Ok b /\ (b = true <-> R * C <= length m).
Proof.
  intros H. unfold is_valid, m_len. rewrite umul_ok by exact H. cbn [bind]. eexists. split; [reflexivity|]. apply Nat.leb_le.
Qed.
Lemma is_empty_ok R C : R * C <= usize_max c -> exists b, is_empty c R C = Ok b /\ (b = true <-> R = 0 \/ C = 0).
Proof.
  intros H. unfold is_empty. rewrite umul_ok by exact H. cbn [bind]. eexists. split; [reflexivity|]. rewrite Nat.eqb_eq. nia.
Qed.
Lemma shape_overflow R C (m : list T) : usize_max c < R * C -> overflow_checks c = true ->
  m_len c R C = Panic UsizeOverflow /\ is_valid c R C m = Panic UsizeOverflow /\ is_empty c R C = Panic UsizeOverflow.
Proof.
  intros H Ho. unfold is_valid, is_empty, m_len, umul. rewrite (proj2 (Nat.leb_gt _ _)) by exact H. rewrite Ho. repeat split.
Qed.
Lemma shape_wraps h : overflow_checks c = false -> usize_max c + 1 = 2 * h -> 1 <= h ->
  exists R C, 1 <= R /\ 1 <= C /\ is_valid c R C (@nil T) = Ok true /\ is_empty c R C = Ok true.
Proof.
  intros Ho Hu Hh. exists 2, h. split; [lia|]. split; [lia|]. unfold is_valid, is_empty, m_len, umul.
  rewrite (proj2 (Nat.leb_gt (2 * h) (usize_max c))) by lia. rewrite Ho. replace (2 * h) with (S (usize_max c)) by lia.
  rewrite Nat.mod_same by lia. split; reflexivity.
Qed.

Lemma vector_get R (m : list T) i : valid c R 1 m -> i < R -> exists v, cell 1 m i 0 = Some v /\ get_row c m i = Ok v.
Proof. intros V Hi. apply (get_at_cell c R 1); auto. Qed.
Lemma vector_get_col C (m : list T) j : valid c 1 C m -> j < C -> exists v, cell C m 0 j = Some v /\ get_col c C m j = Ok v.
Proof. intros V Hj. apply (get_at_cell c 1 C); auto. Qed.
Lemma scalar_get (m : list T) : valid c 1 1 m -> exists v, cell 1 m 0 0 = Some v /\ get_value c m = Ok v.
Proof. intros V. apply (get_at_cell c 1 1); auto. Qed.
Lemma vector_set R (m : list T) i v : valid c R 1 m -> i < R ->
  exists m', set_row c m i v = Ok m' /\ length m' = length m /\ cell 1 m' i 0 = Some v /\ forall p, p <> i -> nth_error m' p = nth_error m p.
Proof.
  intros V Hi. exists (upd m (i * 1 + 0) v). unfold set_row. rewrite (set_at_cell c R 1) by auto. destruct (valid_cell c R 1 m i 0 V Hi ltac:(lia)).
  split; [reflexivity|]. split; [apply length_upd|]. split; [apply nth_error_upd_same; lia|]. intros p Hp. apply nth_error_upd_other. lia.
Qed.
Lemma vector_set_col C (m : list T) j v : valid c 1 C m -> j < C ->
  exists m', set_col c C m j v = Ok m' /\ length m' = length m /\ cell C m' 0 j = Some v /\ forall p, p <> j -> nth_error m' p = nth_error m p.
Proof.
  intros V Hj. exists (upd m (0 * C + j) v). unfold set_col. rewrite (set_at_cell c 1 C) by auto. destruct (valid_cell c 1 C m 0 j V ltac:(lia) Hj).
  split; [reflexivity|]. split; [apply length_upd|]. split; [apply nth_error_upd_same; lia|]. intros p Hp. apply nth_error_upd_other. lia.
Qed.
Lemma scalar_set (m : list T) v : valid c 1 1 m ->
  exists m', set_value c m v = Ok m' /\ length m' = length m /\ cell 1 m' 0 0 = Some v /\ forall p, p <> 0 -> nth_error m' p = nth_error m p.
Proof. intros V. apply (vector_set 1); auto. Qed.

Lemma ex_shape (v : T) : 255 <= usize_max c -> 2 * 3 <= usize_max c /\ valid c 3 1 [v; v; v] /\ valid c 1 3 [v; v; v] /\ valid c 1 1 [v].
Proof.
  intros Hc. assert (E : (100 <= imax c)%Z) by (unfold imax, umaxZ; apply Z.div_le_lower_bound; lia).
  split; [lia|]. repeat split; cbn; try lia; unfold slice_ok; cbn; lia.
Qed.
End Shape.
