(** * One element type refining another: wherever the first does not panic, the second gives the same result *)
From Coq Require Import Lia.
From Verif Require Import Spec Matrix Filter Extended SpecFilter History SpecGen.

(** the operations of [N1] agree with those of [N2] except that they may panic *)
Definition refines {T} (N1 N2 : num T) : Prop :=
  n_zero N1 = n_zero N2 /\ n_one N1 = n_one N2 /\ n_sum0 N1 = n_sum0 N2 /\ (forall a b, n_le N1 a b = n_le N2 a b) /\
  (forall a b r, o_add N1 a b = Some r -> o_add N2 a b = Some r) /\ (forall a b r, o_sub N1 a b = Some r -> o_sub N2 a b = Some r) /\
  (forall a b r, o_mul N1 a b = Some r -> o_mul N2 a b = Some r) /\ (forall a r, o_neg N1 a = Some r -> o_neg N2 a = Some r) /\
  (forall a r, o_recip N1 a = Some r -> o_recip N2 a = Some r) /\ (forall a r, o_sqrt N1 a = Some r -> o_sqrt N2 a = Some r).

(** [m2] gives what [m1] gives, unless [m1] panics in the element arithmetic *)
Definition nsim {A} (m1 m2 : res A) : Prop := m1 = m2 \/ m1 = Panic NumPanic.

Lemma nsim_ok {A} (m1 m2 : res A) a : nsim m1 m2 -> m1 = Ok a -> m2 = Ok a.
Proof. intros [->| ->] H; [exact H|discriminate]. Qed.
Lemma nsim_refl {A} (m : res A) : nsim m m.
Proof. left; reflexivity. Qed.
Lemma nsim_bind {A B} (m1 m2 : res A) (k1 k2 : A -> res B) : nsim m1 m2 -> (forall a, nsim (k1 a) (k2 a)) -> nsim (bind m1 k1) (bind m2 k2).
Proof.
  intros [->| ->] Hk.
  - destruct m2; simpl; [apply Hk|apply nsim_refl].
  - right. reflexivity.
Qed.
Lemma nsim_for_up {S} cnt : forall lo (s : S) b1 b2, (forall i s, nsim (b1 i s) (b2 i s)) -> nsim (for_up cnt lo s b1) (for_up cnt lo s b2).
Proof.
  induction cnt as [|cnt IH]; intros lo s b1 b2 H; cbn [for_up]; [apply nsim_refl|].
  apply nsim_bind; [apply H|]. intros a. apply IH, H.
Qed.
Lemma nsim_for_range {S} lo hi (s : S) b1 b2 : (forall i s, nsim (b1 i s) (b2 i s)) -> nsim (for_range lo hi s b1) (for_range lo hi s b2).
Proof. apply nsim_for_up. Qed.
Lemma nsim_for_down {S} cnt : forall (s : S) b1 b2, (forall i s, nsim (b1 i s) (b2 i s)) -> nsim (for_down cnt s b1) (for_down cnt s b2).
Proof.
  induction cnt as [|cnt IH]; intros s b1 b2 H; cbn [for_down]; [apply nsim_refl|].
  apply nsim_bind; [apply H|]. intros a. apply IH, H.
Qed.
Lemma nsim_while {S} cond fuel : forall (s : S) b1 b2, (forall s, nsim (b1 s) (b2 s)) -> nsim (while_ fuel cond b1 s) (while_ fuel cond b2 s).
Proof.
  induction fuel as [|fuel IH]; intros s b1 b2 H; cbn [while_]; [apply nsim_refl|].
  destruct (cond s); [|apply nsim_refl]. apply nsim_bind; [apply H|]. intros a. apply IH, H.
Qed.
Lemma nsim_for_up_ret {S R} cnt : forall lo (s : S) (b1 b2 : nat -> S -> res (ctl S R)),
  (forall i s, nsim (b1 i s) (b2 i s)) -> nsim (for_up_ret cnt lo s b1) (for_up_ret cnt lo s b2).
Proof.
  induction cnt as [|cnt IH]; intros lo s b1 b2 H; cbn [for_up_ret]; [apply nsim_refl|].
  apply nsim_bind; [apply H|]. intros [s'|r]; [apply IH, H|apply nsim_refl].
Qed.
Lemma nsim_for_range_ret {S R} lo hi (s : S) (b1 b2 : nat -> S -> res (ctl S R)) :
  (forall i s, nsim (b1 i s) (b2 i s)) -> nsim (for_range_ret lo hi s b1) (for_range_ret lo hi s b2).
Proof. apply nsim_for_up_ret. Qed.
Lemma nsim_opt {T} (o1 o2 : option T) : (forall r, o1 = Some r -> o2 = Some r) -> nsim (of_opt o1) (of_opt o2).
Proof. intros H. destruct o1 as [r|]; [rewrite (H r eq_refl); apply nsim_refl|right; reflexivity]. Qed.

Section Sim.
Context {T : Type} (c : cfg) (N1 N2 : num T).
Hypothesis HN : refines N1 N2.

Lemma nsim_add a b : nsim (n_add N1 a b) (n_add N2 a b).
Proof. apply nsim_opt. apply HN. Qed.
Lemma nsim_sub a b : nsim (n_sub N1 a b) (n_sub N2 a b).
Proof. apply nsim_opt. apply HN. Qed.
Lemma nsim_mul a b : nsim (n_mul N1 a b) (n_mul N2 a b).
Proof. apply nsim_opt. apply HN. Qed.
Lemma nsim_neg a : nsim (n_neg N1 a) (n_neg N2 a).
Proof. apply nsim_opt. apply HN. Qed.
Lemma nsim_recip a : nsim (n_recip N1 a) (n_recip N2 a).
Proof. apply nsim_opt. apply HN. Qed.
Lemma nsim_sqrt a : nsim (n_sqrt N1 a) (n_sqrt N2 a).
Proof. apply nsim_opt. apply HN. Qed.
Lemma zero_eq : n_zero N1 = n_zero N2. Proof. apply HN. Qed.
Lemma one_eq : n_one N1 = n_one N2. Proof. apply HN. Qed.
Lemma sum0_eq : n_sum0 N1 = n_sum0 N2. Proof. apply HN. Qed.
Lemma le_eq a b : n_le N1 a b = n_le N2 a b. Proof. apply HN. Qed.

Ltac sim_step :=
  match goal with
  | |- nsim (bind _ _) (bind _ _) => apply nsim_bind; [|intros]
  | |- nsim (for_range _ _ _ _) _ => apply nsim_for_range; intros
  | |- nsim (for_down _ _ _) _ => apply nsim_for_down; intros
  | |- nsim (while_ _ _ _ _) _ => apply nsim_while; intros
  | |- nsim (for_range_ret _ _ _ _) _ => apply nsim_for_range_ret; intros
  | |- nsim (n_add _ _ _) _ => apply nsim_add
  | |- nsim (n_sub _ _ _) _ => apply nsim_sub
  | |- nsim (n_mul _ _ _) _ => apply nsim_mul
  | |- nsim (n_neg _ _) _ => apply nsim_neg
  | |- nsim (n_recip _ _) _ => apply nsim_recip
  | |- nsim (n_sqrt _ _) _ => apply nsim_sqrt
  | |- nsim (let '(_, _) := ?p in _) _ => destruct p
  | |- nsim (if ?b then _ else _) _ => destruct b
  | |- nsim (match ?o with Next _ => _ | Return _ => _ end) _ => destruct o
  | |- nsim (match ?o with Some _ => _ | None => _ end) _ => destruct o
  | |- nsim ?m ?m => apply nsim_refl
  | H : forall a b, nsim (?f a b) (?g a b) |- nsim (?f _ _) (?g _ _) => apply H
  end.
Ltac sim_tac := rewrite ?zero_eq, ?one_eq, ?sum0_eq; repeat (rewrite ?le_eq; sim_step).

Lemma nsim_mult M K U (a b cm : list T) : nsim (mult c N1 M K U a b cm) (mult c N2 M K U a b cm).
Proof. unfold mult. sim_tac. Qed.
Lemma nsim_mult_buffered M K U (a b cm x : list T) : nsim (mult_buffered c N1 M K U a b cm x) (mult_buffered c N2 M K U a b cm x).
Proof. unfold mult_buffered. sim_tac. Qed.
Lemma nsim_gen_mult_rowvector s1 s2 M K (a x cm : list T) : (forall o t, nsim (s1 o t) (s2 o t)) ->
  nsim (gen_mult_rowvector c N1 s1 M K a x cm) (gen_mult_rowvector c N2 s2 M K a x cm).
Proof. intros H. unfold gen_mult_rowvector. sim_tac. Qed.
Lemma nsim_mult_rowvector M K (a x cm : list T) : nsim (mult_rowvector c N1 M K a x cm) (mult_rowvector c N2 M K a x cm).
Proof. apply nsim_gen_mult_rowvector. intros. apply nsim_refl. Qed.
Lemma nsim_multadd_rowvector M K (a x cm : list T) : nsim (multadd_rowvector c N1 M K a x cm) (multadd_rowvector c N2 M K a x cm).
Proof. apply nsim_gen_mult_rowvector. intros. apply nsim_add. Qed.
Lemma nsim_gen_mult_transb s1 s2 M K U (a b cm : list T) : (forall o t, nsim (s1 o t) (s2 o t)) ->
  nsim (gen_mult_transb c N1 s1 M K U a b cm) (gen_mult_transb c N2 s2 M K U a b cm).
Proof. intros H. unfold gen_mult_transb. sim_tac. Qed.
Lemma nsim_mult_transb M K U (a b cm : list T) : nsim (mult_transb c N1 M K U a b cm) (mult_transb c N2 M K U a b cm).
Proof. apply nsim_gen_mult_transb. intros. apply nsim_refl. Qed.
Lemma nsim_multadd_transb M K U (a b cm : list T) : nsim (multadd_transb c N1 M K U a b cm) (multadd_transb c N2 M K U a b cm).
Proof. apply nsim_gen_mult_transb. intros. apply nsim_add. Qed.
Lemma nsim_multscale_transb s M K U (a b cm : list T) : nsim (multscale_transb c N1 s M K U a b cm) (multscale_transb c N2 s M K U a b cm).
Proof. apply nsim_gen_mult_transb. intros. apply nsim_mul. Qed.
Lemma nsim_m_sub R C (a b d : list T) : nsim (m_sub c N1 R C a b d) (m_sub c N2 R C a b d).
Proof. unfold m_sub, m_len. sim_tac. Qed.
Lemma nsim_add_inplace_a R C (a b : list T) : nsim (add_inplace_a c N1 R C a b) (add_inplace_a c N2 R C a b).
Proof. unfold add_inplace_a, m_len. sim_tac. Qed.
Lemma nsim_add_inplace_b R C (a b : list T) : nsim (add_inplace_b c N1 R C a b) (add_inplace_b c N2 R C a b).
Proof. unfold add_inplace_b, m_len. sim_tac. Qed.
Lemma nsim_sub_inplace_a R C (a b : list T) : nsim (sub_inplace_a c N1 R C a b) (sub_inplace_a c N2 R C a b).
Proof. unfold sub_inplace_a, m_len. sim_tac. Qed.
Lemma nsim_sub_inplace_b R C (a b : list T) : nsim (sub_inplace_b c N1 R C a b) (sub_inplace_b c N2 R C a b).
Proof. unfold sub_inplace_b, m_len. sim_tac. Qed.
Lemma nsim_sum_range lo hi f1 f2 : (forall k, nsim (f1 k) (f2 k)) -> nsim (sum_range N1 lo hi f1) (sum_range N2 lo hi f2).
Proof. intros H. unfold sum_range. sim_tac. apply H. Qed.
Lemma nsim_invert n (m v : list T) : nsim (invert_l_cholesky c N1 n m v) (invert_l_cholesky c N2 n m v).
Proof.
  unfold invert_l_cholesky, invert_phase1, invert_phase2.
  repeat (rewrite ?zero_eq, ?one_eq, ?sum0_eq; first [apply nsim_sum_range; intros | sim_step]).
Qed.
Lemma nsim_cholesky R C (t : list T) : nsim (cholesky_decompose_lower c N1 R C t) (cholesky_decompose_lower c N2 R C t).
Proof.
  unfold cholesky_decompose_lower, chol_body, chol_inner, chol_zero_upper.
  repeat (rewrite ?zero_eq, ?one_eq, ?sum0_eq, ?le_eq; sim_step).
Qed.

Ltac sim_call := repeat first
  [ apply nsim_mult | apply nsim_mult_rowvector | apply nsim_multadd_rowvector | apply nsim_mult_transb | apply nsim_multadd_transb
  | apply nsim_multscale_transb | apply nsim_add_inplace_a
  | apply nsim_add_inplace_b | apply nsim_sub_inplace_a | apply nsim_sub_inplace_b | apply nsim_invert | apply nsim_cholesky | sim_step ].

Lemma nsim_predict_P n (f : kalman T) : nsim (predict_P c N1 n f) (predict_P c N2 n f).
Proof. unfold predict_P. sim_call. Qed.
Lemma nsim_predict_P_tuned n l (f : kalman T) : nsim (predict_P_tuned c N1 n l f) (predict_P_tuned c N2 n l f).
Proof. unfold predict_P_tuned. sim_call. Qed.
Lemma nsim_update n m (o : observation T) x P : nsim (update_with_innovation c N1 n m o x P) (update_with_innovation c N2 n m o x P).
Proof. unfold update_with_innovation. sim_call. Qed.

Ltac sim_calls :=
  repeat first [ apply nsim_predict_P | apply nsim_predict_P_tuned | apply nsim_update | progress sim_call
    | match goal with |- nsim (match ?o with Some _ => _ | None => _ end) _ => destruct o as [[? ?]|] end ].
Lemma nsim_predict n (f : kalman T) : nsim (predict c N1 n f) (predict c N2 n f).
Proof. unfold predict, predict_x. sim_calls. Qed.
Lemma nsim_control n m k (f : kalman T) : nsim (control_ c N1 n m k f) (control_ c N2 n m k f).
Proof. unfold control_, apply_control. sim_calls. Qed.
Lemma nsim_correct n m o (f : kalman T) : nsim (correct c N1 n m o f) (correct c N2 n m o f).
Proof. unfold correct, obs_correct. sim_calls. Qed.

Lemma nsim_step_ n (w : world T) o : nsim (step c N1 n w o) (step c N2 n w o).
Proof.
  destruct o; cbn [step];
    unfold predict, predict_tuned, predict_x, predict_nonlinear, predict_tuned_nonlinear, predict_x_nonlinear,
      control_, apply_control, correct, obs_correct, correct_nonlinear, obs_correct_nonlinear;
    sim_calls.
Qed.
Lemma nsim_run n os : forall w : world T, nsim (run c N1 n w os) (run c N2 n w os).
Proof.
  induction os as [|o os IH]; intros w; cbn [run]; [apply nsim_refl|]. apply nsim_bind; [apply nsim_step_|exact IH].
Qed.
End Sim.
