(** * Results do not depend on the build: pointer width, overflow checks, assertions *)
From Coq Require Import Lia.
From Verif Require Import Spec Matrix Filter Extended SpecFilter History SpecGen HistGen.

(** a panic that only some builds raise *)
Definition build_panic (e : panic) : Prop := e = UsizeOverflow \/ e = IsizeOverflow \/ e = AssertFailed.

(** [m2] gives what [m1] gives, unless [m1] trips a check *)
Definition sim {A} (m1 m2 : res A) : Prop := m1 = m2 \/ exists e, m1 = Panic e /\ build_panic e.

Lemma sim_ok {A} (m1 m2 : res A) a : sim m1 m2 -> m1 = Ok a -> m2 = Ok a.
Proof. intros [->|(e & -> & _)] H; [exact H|discriminate]. Qed.
Lemma sim_refl {A} (m : res A) : sim m m.
Proof. left; reflexivity. Qed.
Lemma sim_bind {A B} (m1 m2 : res A) (k1 k2 : A -> res B) : sim m1 m2 -> (forall a, sim (k1 a) (k2 a)) -> sim (bind m1 k1) (bind m2 k2).
Proof.
  intros [->|(e & -> & He)] Hk.
  - destruct m2; simpl; [apply Hk|apply sim_refl].
  - right. exists e. split; [reflexivity|exact He].
Qed.
Lemma sim_for_up {S} cnt : forall lo (s : S) b1 b2, (forall i s, sim (b1 i s) (b2 i s)) -> sim (for_up cnt lo s b1) (for_up cnt lo s b2).
Proof.
  induction cnt as [|cnt IH]; intros lo s b1 b2 H; cbn [for_up]; [apply sim_refl|].
  apply sim_bind; [apply H|]. intros a. apply IH, H.
Qed.
Lemma sim_for_range {S} lo hi (s : S) b1 b2 : (forall i s, sim (b1 i s) (b2 i s)) -> sim (for_range lo hi s b1) (for_range lo hi s b2).
Proof. apply sim_for_up. Qed.
Lemma sim_for_down {S} cnt : forall (s : S) b1 b2, (forall i s, sim (b1 i s) (b2 i s)) -> sim (for_down cnt s b1) (for_down cnt s b2).
Proof.
  induction cnt as [|cnt IH]; intros s b1 b2 H; cbn [for_down]; [apply sim_refl|].
  apply sim_bind; [apply H|]. intros a. apply IH, H.
Qed.
Lemma sim_while {S} cond fuel : forall (s : S) b1 b2, (forall s, sim (b1 s) (b2 s)) -> sim (while_ fuel cond b1 s) (while_ fuel cond b2 s).
Proof.
  induction fuel as [|fuel IH]; intros s b1 b2 H; cbn [while_]; [apply sim_refl|].
  destruct (cond s); [|apply sim_refl]. apply sim_bind; [apply H|]. intros a. apply IH, H.
Qed.
Lemma sim_for_up_ret {S R} cnt : forall lo (s : S) (b1 b2 : nat -> S -> res (ctl S R)),
  (forall i s, sim (b1 i s) (b2 i s)) -> sim (for_up_ret cnt lo s b1) (for_up_ret cnt lo s b2).
Proof.
  induction cnt as [|cnt IH]; intros lo s b1 b2 H; cbn [for_up_ret]; [apply sim_refl|].
  apply sim_bind; [apply H|]. intros [s'|r]; [apply IH, H|apply sim_refl].
Qed.
Lemma sim_for_range_ret {S R} lo hi (s : S) (b1 b2 : nat -> S -> res (ctl S R)) :
  (forall i s, sim (b1 i s) (b2 i s)) -> sim (for_range_ret lo hi s b1) (for_range_ret lo hi s b2).
Proof. apply sim_for_up_ret. Qed.

(** every check of [c2] is one of [c1] *)
Definition stricter (c1 c2 : cfg) : Prop :=
  usize_max c1 <= usize_max c2 /\ overflow_checks c1 = true /\ debug_assertions c1 = true /\ no_assert c1 = false.

Section Sim.
Context {T : Type} (N : num T) (c1 c2 : cfg).
Hypothesis Hc : stricter c1 c2.

Lemma sim_uadd a b : sim (uadd c1 a b) (uadd c2 a b).
Proof.
  destruct Hc as (Hu & Ho & _). unfold uadd. rewrite Ho. destruct (Nat.leb_spec (a + b) (usize_max c1)).
  - left. destruct (Nat.leb_spec (a + b) (usize_max c2)); [reflexivity|lia].
  - right. exists UsizeOverflow. split; [reflexivity|left; reflexivity].
Qed.
Lemma sim_umul a b : sim (umul c1 a b) (umul c2 a b).
Proof.
  destruct Hc as (Hu & Ho & _). unfold umul. rewrite Ho. destruct (Nat.leb_spec (a * b) (usize_max c1)).
  - left. destruct (Nat.leb_spec (a * b) (usize_max c2)); [reflexivity|lia].
  - right. exists UsizeOverflow. split; [reflexivity|left; reflexivity].
Qed.
Lemma sim_usub a b : sim (usub c1 a b) (usub c2 a b).
Proof.
  destruct Hc as (Hu & Ho & _). unfold usub. rewrite Ho. destruct (Nat.leb_spec b a).
  - left. reflexivity.
  - right. exists UsizeOverflow. split; [reflexivity|left; reflexivity].
Qed.
Lemma sim_dassert b : sim (dassert c1 b) (dassert c2 b).
Proof.
  destruct Hc as (_ & _ & Hd & Hn). unfold dassert. rewrite Hd, Hn. destruct b.
  - left. destruct (no_assert c2), (debug_assertions c2); reflexivity.
  - right. exists AssertFailed. split; [reflexivity|right; right; reflexivity].
Qed.

Ltac sim_step :=
  match goal with
  | |- sim (bind _ _) (bind _ _) => apply sim_bind; [|intros]
  | |- sim (for_range _ _ _ _) _ => apply sim_for_range; intros
  | |- sim (for_down _ _ _) _ => apply sim_for_down; intros
  | |- sim (while_ _ _ _ _) _ => apply sim_while; intros
  | |- sim (for_range_ret _ _ _ _) _ => apply sim_for_range_ret; intros
  | |- sim (uadd _ _ _) _ => apply sim_uadd
  | |- sim (umul _ _ _) _ => apply sim_umul
  | |- sim (usub _ _ _) _ => apply sim_usub
  | |- sim (dassert _ _) _ => apply sim_dassert
  | |- sim (let '(_, _) := ?p in _) _ => destruct p
  | |- sim (if ?b then _ else _) _ => destruct b
  | |- sim (match ?o with Next _ => _ | Return _ => _ end) _ => destruct o
  | |- sim (match ?o with Some _ => _ | None => _ end) _ => destruct o
  | |- sim ?m ?m => apply sim_refl
  end.
Ltac sim_tac := repeat sim_step.

Lemma sim_mult M K U (a b cm : list T) : sim (mult c1 N M K U a b cm) (mult c2 N M K U a b cm).
Proof. unfold mult. sim_tac. Qed.
Lemma sim_copy_to R C (a b : list T) : sim (copy_to c1 R C a b) (copy_to c2 R C a b).
Proof. unfold copy_to, m_len. sim_tac. Qed.
Lemma sim_gen_mult_rowvector st M K (a x cm : list T) : sim (gen_mult_rowvector c1 N st M K a x cm) (gen_mult_rowvector c2 N st M K a x cm).
Proof. unfold gen_mult_rowvector. sim_tac. Qed.
Lemma sim_gen_mult_transb st M K U (a b cm : list T) : sim (gen_mult_transb c1 N st M K U a b cm) (gen_mult_transb c2 N st M K U a b cm).
Proof. unfold gen_mult_transb. sim_tac. Qed.
Lemma sim_m_sub R C (a b d : list T) : sim (m_sub c1 N R C a b d) (m_sub c2 N R C a b d).
Proof. unfold m_sub, m_len. sim_tac. Qed.
Lemma sim_add_inplace_a R C (a b : list T) : sim (add_inplace_a c1 N R C a b) (add_inplace_a c2 N R C a b).
Proof. unfold add_inplace_a, m_len. sim_tac. Qed.
Lemma sim_add_inplace_b R C (a b : list T) : sim (add_inplace_b c1 N R C a b) (add_inplace_b c2 N R C a b).
Proof. unfold add_inplace_b, m_len. sim_tac. Qed.
Lemma sim_sub_inplace_a R C (a b : list T) : sim (sub_inplace_a c1 N R C a b) (sub_inplace_a c2 N R C a b).
Proof. unfold sub_inplace_a, m_len. sim_tac. Qed.
Lemma sim_sub_inplace_b R C (a b : list T) : sim (sub_inplace_b c1 N R C a b) (sub_inplace_b c2 N R C a b).
Proof. unfold sub_inplace_b, m_len. sim_tac. Qed.
Lemma sim_invert n (m v : list T) : sim (invert_l_cholesky c1 N n m v) (invert_l_cholesky c2 N n m v).
Proof. unfold invert_l_cholesky, invert_phase1, invert_phase2, sum_range. sim_tac. Qed.
Lemma sim_cholesky R C (t : list T) : sim (cholesky_decompose_lower c1 N R C t) (cholesky_decompose_lower c2 N R C t).
Proof. unfold cholesky_decompose_lower, chol_body, chol_inner, chol_zero_upper. sim_tac. Qed.
Lemma sim_get_at C (m : list T) i j : sim (get_at c1 C m i j) (get_at c2 C m i j).
Proof. unfold get_at. sim_tac. Qed.
Lemma sim_set_at C (m : list T) i j v : sim (set_at c1 C m i j v) (set_at c2 C m i j v).
Proof. unfold set_at. sim_tac. Qed.
Lemma sim_make_comatrix n d o (m : list T) : sim (make_comatrix c1 n d o m) (make_comatrix c2 n d o m).
Proof. unfold make_comatrix. sim_tac. Qed.
Lemma sim_is_empty R C : sim (is_empty c1 R C) (is_empty c2 R C).
Proof. unfold is_empty. sim_tac. Qed.

Ltac sim_call := repeat first
  [ apply sim_mult | apply sim_copy_to | apply sim_gen_mult_rowvector | apply sim_gen_mult_transb | apply sim_add_inplace_a
  | apply sim_add_inplace_b | apply sim_sub_inplace_a | apply sim_sub_inplace_b | apply sim_invert | apply sim_cholesky
  | apply sim_is_empty | sim_step ].

Lemma sim_predict_P n (f : kalman T) : sim (predict_P c1 N n f) (predict_P c2 N n f).
Proof. unfold predict_P. sim_call. Qed.
Lemma sim_predict_P_tuned n l (f : kalman T) : sim (predict_P_tuned c1 N n l f) (predict_P_tuned c2 N n l f).
Proof. unfold predict_P_tuned. sim_call. Qed.
Lemma sim_update n m (o : observation T) x P : sim (update_with_innovation c1 N n m o x P) (update_with_innovation c2 N n m o x P).
Proof. unfold update_with_innovation. sim_call. Qed.

Ltac sim_calls :=
  repeat first [ apply sim_predict_P | apply sim_predict_P_tuned | apply sim_update | progress sim_call
    | match goal with |- sim (match ?o with Some _ => _ | None => _ end) _ => destruct o as [[? ?]|] end ].
Lemma sim_predict n (f : kalman T) : sim (predict c1 N n f) (predict c2 N n f).
Proof. unfold predict, predict_x. sim_calls. Qed.
Lemma sim_control n m k (f : kalman T) : sim (control_ c1 N n m k f) (control_ c2 N n m k f).
Proof. unfold control_, apply_control. sim_calls. Qed.
Lemma sim_correct n m o (f : kalman T) : sim (correct c1 N n m o f) (correct c2 N n m o f).
Proof. unfold correct, obs_correct. sim_calls. Qed.
Lemma sim_predict_tuned n l (f : kalman T) : sim (predict_tuned c1 N n l f) (predict_tuned c2 N n l f).
Proof. unfold predict_tuned, predict_x. sim_calls. Qed.
Lemma sim_predict_nl n st (f : kalman T) : sim (predict_nonlinear c1 N n st f) (predict_nonlinear c2 N n st f).
Proof. unfold predict_nonlinear, predict_x_nonlinear. sim_calls. Qed.
Lemma sim_predict_tuned_nl n l st (f : kalman T) : sim (predict_tuned_nonlinear c1 N n l st f) (predict_tuned_nonlinear c2 N n l st f).
Proof. unfold predict_tuned_nonlinear, predict_x_nonlinear. sim_calls. Qed.
Lemma sim_correct_nl n m h o (f : kalman T) : sim (correct_nonlinear c1 N n m h o f) (correct_nonlinear c2 N n m h o f).
Proof. unfold correct_nonlinear, obs_correct_nonlinear. sim_calls. Qed.

Lemma sim_step_ n (w : world T) o : sim (step c1 N n w o) (step c2 N n w o).
Proof.
  destruct o; cbn [step];
    unfold predict, predict_tuned, predict_x, predict_nonlinear, predict_tuned_nonlinear, predict_x_nonlinear,
      control_, apply_control, correct, obs_correct, correct_nonlinear, obs_correct_nonlinear;
    sim_calls.
Qed.
Lemma sim_run n os : forall w : world T, sim (run c1 N n w os) (run c2 N n w os).
Proof.
  induction os as [|o os IH]; intros w; cbn [run]; [apply sim_refl|]. apply sim_bind; [apply sim_step_|exact IH].
Qed.
End Sim.

(** the most cautious build of a given pointer width *)
Definition cautious (c : cfg) : cfg := {| usize_max := usize_max c; overflow_checks := true; debug_assertions := true; no_assert := false |}.

Section Builds.
Context {T : Type} (N : num T) (n : nat).

Lemma run_cautious (c c2 : cfg) (w : world T) os : usize_max c <= usize_max c2 ->
  world_ok c n w -> Forall (op_safe c N n (ob_dims w)) os -> run (cautious c) N n w os = run c2 N n w os.
Proof.
  intros Hu Hw Ho.
  assert (W : wp (run (cautious c) N n w os) (fun _ => True) (arith_only N)).
  { pose proof (run_wp (cautious c) N n w os Hw Ho) as H. destruct (run (cautious c) N n w os); simpl in *; auto. }
  destruct (sim_run N (cautious c) c2 (conj Hu (conj eq_refl (conj eq_refl eq_refl))) n os w) as [E|(e & E & He)]; [exact E|].
  exfalso. rewrite E in W. simpl in W. destruct W as [-> _]. destruct He as [?|[?|?]]; discriminate.
Qed.

Theorem run_builds (c1 c2 : cfg) (w : world T) os :
  world_ok c1 n w -> world_ok c2 n w -> Forall (op_safe c1 N n (ob_dims w)) os -> Forall (op_safe c2 N n (ob_dims w)) os ->
  run c1 N n w os = run c2 N n w os.
Proof.
  intros W1 W2 O1 O2. destruct (Nat.le_ge_cases (usize_max c1) (usize_max c2)) as [H|H].
  - rewrite <- (run_cautious c1 c1 w os), <- (run_cautious c1 c2 w os); auto.
  - rewrite <- (run_cautious c2 c1 w os), <- (run_cautious c2 c2 w os); auto.
Qed.
End Builds.
