(** * Lemmas behind PropHistory.v: corollaries and examples *)
From Coq Require Import Lia.
From Verif Require Import Spec Wp Kernels Matrix Filter Extended SpecFilter History SpecGen FilterGen FilterTwo HistGen HistTwo ExampleData.
From Verif Require Import SpecExact SpecHistory SpecWorld HistExact WorldMath Represent ExactExamples.

Section Gen.
Context {T : Type} (c : cfg) (N : num T) (n : nat).

Lemma run_never_panics (w : world T) os : never_panics N -> world_ok c n w -> Forall (op_safe c N n (ob_dims w)) os ->
  exists w', run c N n w os = Ok w' /\ world_ok c n w'.
Proof.
  intros Hp Hw Ho. pose proof (run_wp c N n w os Hw Ho) as H. destruct (run c N n w os) as [w'|e].
  - exists w'. split; [reflexivity|apply H].
  - destruct H as [_ H]. contradiction.
Qed.

Lemma correct_linear (m : nat) (h : list T -> list T -> res (list T)) (o1 o2 : observation T) (f g : kalman T) :
  1 <= n -> 1 <= m -> closure_two c m n (mult_rowvector c N m n (ob_H o1)) h -> ob_rel c n m o1 o2 -> kf_rel c n f g ->
  rres (fun r1 r2 => ob_rel c n m (fst r1) (fst r2) /\ kf_rel c n (snd r1) (snd r2) /\
          same_matrix n m (ob_K (fst r1)) (ob_K (fst r2)) /\ same_matrix m 1 (ob_y (fst r1)) (ob_y (fst r2)))
    (correct c N n m o1 f) (correct_nonlinear c N n m h o2 g).
Proof. intros Hn Hm Hh Ho Hf. exact (correct_nl_two c N n m _ h o1 o2 f g Hn Hm Hh Ho Hf). Qed.
End Gen.

Definition ex_world_a : world Z := (ex_world 0 1 3 2 5)%Z.
Definition ex_Aclosure : list Z := [1; 1; 0; 1]%Z.
Definition ex_z34 : list Z := [3; 4]%Z.
Definition ex_z78 : list Z := [7; 8]%Z.
Lemma ex_c16 : world_ok cfg64 2 (ex_world 0 1 3 2 5)%Z /\
  Forall (op_safe cfg64 z_num 2 [1; 2]) [OPredict; OControl 0; OCorrect 1; OPredictNonlinear (mult_rowvector cfg64 z_num 2 2 [1; 1; 0; 1]%Z)].
Proof.
  split; [apply ex_world_ok|].
  repeat (apply Forall_cons; [exact I|]). apply Forall_cons; [|apply Forall_nil].
  intros x out Hx Ho.
  exact (wp_mono _ _ _ _ _ (mult_rowvector_wp cfg64 z_num 2 2 [1; 1; 0; 1]%Z x out (le_S _ _ (le_n _)) (valid64 2 2 [1; 1; 0; 1]%Z eq_refl eq_refl) Hx Ho)
    (fun r H => proj1 H) (fun p H => H)).
Qed.

Lemma ex_c58 : world_ok cfg64 2 ex_world_a /\ world_ok cfg16 2 ex_world_a /\
  Forall (op_safe cfg64 z_num 2 [1; 2]) [OPredict; OControl 0; OCorrect 1] /\ Forall (op_safe cfg16 z_num 2 [1; 2]) [OPredict; OControl 0; OCorrect 1].
Proof.
  split; [apply ex_world_ok|]. split; [apply ex_world_any; rewrite imax16; lia|].
  split; repeat (apply Forall_cons; [exact I|]); apply Forall_nil.
Qed.

(** two worlds that differ in every scratch buffer *)
Definition ex_kf' : kalman Z := (mk_kalman [1; 1; 0; 1] [1; 3] [2; 1; 1; 2] [1; 0; 0; 1] [9; 8] [7; 6; 5; 4])%Z.
Definition ex_ct' : control Z := (mk_ctl [1; 3] [5] [1] [9; 9])%Z.
Definition ex_ob1' : observation Z := (mk_obs [1; 0] [5] [1] [8] [8] [8; 8] [8] [8; 8] [8; 8] [8; 8; 8; 8])%Z.
Definition ex_ob2' : observation Z := (mk_obs [1; 0; 0; 1] [5; 3] [2; 1; 1; 2] [8; 8] [8; 8; 8; 8] [8; 8; 8; 8] [8; 8; 8; 8] [8; 8; 8; 8] [8; 8; 8; 8] [8; 8; 8; 8])%Z.
Definition ex_world' : world Z := mk_world ex_kf' [(1, ex_ct')] [(1, ex_ob1'); (2, ex_ob2')].
Ltac vs := repeat match goal with |- _ /\ _ => split | |- valid _ _ _ _ => apply valid64; reflexivity | |- same_matrix _ _ _ _ => intros p _; reflexivity end.
Lemma ex_world_rel : world_rel cfg64 2 (ex_world 0 1 3 2 5)%Z ex_world'.
Proof.
  split; [|split].
  - unfold kf_rel, kf_valid, kf_same, ex_world, ex_world', ex_kf, ex_kf'; cbn [w_kf kf_A kf_x kf_P kf_Q kf_px kf_tP]. vs.
  - apply Forall2_cons; [|apply Forall2_nil]. split; [reflexivity|].
    unfold ct_rel, ct_valid, ct_same, ex_ct, ex_ct'; cbn [snd fst ct_B ct_u ct_Q ct_BQ]. vs.
  - unfold ex_world, ex_world'; cbn [w_ob].
    apply Forall2_cons; [|apply Forall2_cons; [|apply Forall2_nil]]; (split; [reflexivity|]);
    unfold ob_rel, ob_valid, ob_same, ex_ob1, ex_ob1', ex_ob2, ex_ob2'; cbn [snd fst ob_H ob_z ob_R ob_y ob_S ob_K ob_Sinv ob_HP ob_PHt ob_KHP]; vs.
Qed.
Lemma ex_c31 : exists w1 w2 : world Z, world_rel cfg64 2 w1 w2 /\ kf_px (w_kf w1) <> kf_px (w_kf w2) /\ kf_tP (w_kf w1) <> kf_tP (w_kf w2) /\
  ob_dims w1 = [1; 2] /\ Forall2 (op_same (T:=Z) cfg64 2 [1; 2]) [OPredict; OControl 0; OCorrect 1] [OPredict; OControl 0; OCorrect 1].
Proof.
  exists (ex_world 0 1 3 2 5)%Z, ex_world'. split; [exact ex_world_rel|]. split; [discriminate|]. split; [discriminate|]. split; [reflexivity|].
  repeat (apply Forall2_cons; [reflexivity|]). apply Forall2_nil.
Qed.
(** two worlds that differ in the data *)
Definition ex_kfd : kalman Z := (mk_kalman [1; 1; 0; 1] [100; 300] [2; 1; 1; 2] [1; 0; 0; 1] [9; 8] [7; 6; 5; 4])%Z.
Definition ex_ctd : control Z := (mk_ctl [1; 3] [500] [1] [9; 9])%Z.
Definition ex_ob1d : observation Z := (mk_obs [1; 0] [500] [1] [8] [8] [8; 8] [8] [8; 8] [8; 8] [8; 8; 8; 8])%Z.
Definition ex_ob2d : observation Z := (mk_obs [1; 0; 0; 1] [500; 300] [2; 1; 1; 2] [8; 8] [8; 8; 8; 8] [8; 8; 8; 8] [8; 8; 8; 8] [8; 8; 8; 8] [8; 8; 8; 8] [8; 8; 8; 8])%Z.
Definition ex_worldd : world Z := mk_world ex_kfd [(1, ex_ctd)] [(1, ex_ob1d); (2, ex_ob2d)].
Lemma ex_world_cov : world_cov cfg64 2 (ex_world 0 1 3 2 5)%Z ex_worldd.
Proof.
  split; [|split].
  - unfold kf_cov, kf_valid, ex_world, ex_worldd, ex_kf, ex_kfd; cbn [w_kf kf_A kf_x kf_P kf_Q kf_px kf_tP]. vs.
  - apply Forall2_cons; [|apply Forall2_nil]. split; [reflexivity|].
    unfold ct_cov, ct_valid, ex_ct, ex_ctd; cbn [snd fst ct_B ct_u ct_Q ct_BQ]. vs.
  - unfold ex_world, ex_worldd; cbn [w_ob].
    apply Forall2_cons; [|apply Forall2_cons; [|apply Forall2_nil]]; (split; [reflexivity|]);
    unfold ob_cov, ob_valid, ex_ob1, ex_ob1d, ex_ob2, ex_ob2d; cbn [snd fst ob_H ob_z ob_R ob_y ob_S ob_K ob_Sinv ob_HP ob_PHt ob_KHP]; vs.
Qed.
Lemma ex_c29 : exists w1 w2 : world Z, world_cov cfg64 2 w1 w2 /\ kf_x (w_kf w1) <> kf_x (w_kf w2) /\ ob_dims w1 = [1; 2] /\
  Forall2 op_cov [OPredict; OSetZ 1 [3; 4]%Z; OCorrect 1] [OPredict; OSetZ 1 [7; 8]%Z; OCorrect 1].
Proof.
  exists (ex_world 0 1 3 2 5)%Z, ex_worldd. split; [exact ex_world_cov|]. split; [discriminate|]. split; [reflexivity|].
  repeat (apply Forall2_cons; [reflexivity|]). apply Forall2_nil.
Qed.

From mathcomp Require Import all_ssreflect all_algebra.
Set Implicit Arguments.
Unset Strict Implicit.
Unset Printing Implicit Defensive.
Import GRing.Theory Num.Theory.
Local Open Scope ring_scope.
Local Notation den c n w os ts := (List.Forall2 (@denotes _ c n w) os ts).

Section Ex.
Variable R : rcfType.
Lemma x_ok : ops_ok (x_tw R) (x_ts R).
Proof. exact: proj1 (run_good (x_tw_good R) (x_ts_good R)). Qed.
Lemma ex_c24 : exists w os, world_ok cfg64 2 w /\ world_abs 2 w = x_tw R /\ den cfg64 2 w os (x_ts R) /\
  tw_good (x_tw R) /\ ops_good (x_tw R) (x_ts R) /\ ops_ok (x_tw R) (x_ts R).
Proof.
have [w [os [W [A D]]]] := rep_program (x_ts R) (x_tw_fits R).
exists w, os; exact: (conj W (conj A (conj D (conj (x_tw_good R) (conj (x_ts_good R) x_ok))))).
Qed.
Lemma ex_c41 : exists w1 w2 os1 os2, world_ok cfg64 2 w1 /\ world_ok cfg64 2 w2 /\
  den cfg64 2 w1 os1 (x_ts R) /\ den cfg64 2 w2 os2 (List.map (op_scale 2%:R) (x_ts R)) /\
  world_abs 2 w1 = x_tw R /\ world_abs 2 w2 = tw_scale 2%:R (x_tw R) /\
  tw_good (x_tw R) /\ tw_good (tw_scale 2%:R (x_tw R)) /\ ops_good (x_tw R) (x_ts R) /\
  ops_good (tw_scale 2%:R (x_tw R)) (List.map (op_scale 2%:R) (x_ts R)) /\
  tw_le (x_tw R) (tw_scale 2%:R (x_tw R)) /\ tops_le (x_tw R) (x_ts R) (List.map (op_scale 2%:R) (x_ts R)).
Proof.
have [w [os [W [A D]]]] := rep_program (x_ts R) (x_tw_fits R).
have [w2 [os2 [W2 [A2 D2]]]] := rep_program (x_ts2 R) (x_tw2_fits R).
exists w, w2, os, os2.
exact: (conj W (conj W2 (conj D (conj D2 (conj A (conj A2 (conj (x_tw_good R) (conj (x_tw2_good R) (conj (x_ts_good R)
  (conj (x_ts2_good R) (conj (x_tw_le R) (x_ts_le R)))))))))))).
Qed.
Lemma ex_c42 : exists w os, world_ok cfg64 2 w /\ world_abs 2 w = x_tw R /\ den cfg64 2 w os (map fst (x_quiet R)) /\
  ops_ok (x_tw R) (map fst (x_quiet R)) /\ noise_free (x_tw R) (const_mx 2) (x_quiet R).
Proof.
have [w [os [W [A D]]]] := rep_program (map fst (x_quiet R)) (x_tw_fits R).
have O : ops_ok (x_tw R) (map fst (x_quiet R)) by apply: proj1 (run_good (x_tw_good R) _).
exists w, os; exact: (conj W (conj A (conj D (conj O (x_quiet_ok R))))).
Qed.
Lemma coord_fits c n (T : 'M[R]_n) tw : tw_fits c tw -> tw_fits c (tw_coord T tw).
Proof.
case: tw => A Q s ct ob [H1 [H2 [H3 [/= H4 H5]]]]; refine (conj H1 (conj H2 (conj H3 (conj _ _)))).
  by apply/List.Forall_map; apply: List.Forall_impl H4 => -[].
by apply/List.Forall_map; apply: List.Forall_impl H5 => -[].
Qed.
Lemma ex_c43 : exists w1 w2 os1 os2, x_A R \in unitmx /\ world_ok cfg64 2 w1 /\ world_ok cfg64 2 w2 /\
  den cfg64 2 w1 os1 (x_ts R) /\ den cfg64 2 w2 os2 (List.map (op_coord (x_A R)) (x_ts R)) /\ ops_ok (x_tw R) (x_ts R) /\
  world_abs 2 w1 = x_tw R /\ world_abs 2 w2 = tw_coord (x_A R) (x_tw R).
Proof.
have [w [os [W [A D]]]] := rep_program (x_ts R) (x_tw_fits R).
have [w2 [os2 [W2 [A2 D2]]]] := rep_program (List.map (op_coord (x_A R)) (x_ts R)) (coord_fits (x_A R) (x_tw_fits R)).
exists w, w2, os, os2.
exact: (conj (x_A_unit R) (conj W (conj W2 (conj D (conj D2 (conj x_ok (conj A A2))))))).
Qed.
Lemma ex_c56 (a b p1 p2 p3 p4 p5 p6 q1 q2 q3 q4 q5 q6 : R) :
  let w1 := x_data p1 p2 p3 p4 in let w2 := x_data q1 q2 q3 q4 in
  let w3 := x_data (a * p1 + b * q1) (a * p2 + b * q2) (a * p3 + b * q3) (a * p4 + b * q4) in
  let t1 := x_datas p5 p6 in let t2 := x_datas q5 q6 in let t3 := x_datas (a * p5 + b * q5) (a * p6 + b * q6) in
  (tw_fits cfg64 w1 /\ tw_fits cfg64 w2 /\ tw_fits cfg64 w3) /\
  tw_lin a b w1 w2 w3 /\ tops_lin a b w3 t1 t2 t3 /\ ops_ok w1 t1 /\ ops_ok w2 t2 /\ ops_ok w3 t3.
Proof.
have O x u z1 z2 u' z' : ops_ok (x_data x u z1 z2 : tworld R 2) (x_datas u' z') := proj1 (run_good (x_data_good _ _ _ _) (x_datas_good _ _ _)).
exact: (conj (conj (x_data_fits _ _ _ _) (conj (x_data_fits _ _ _ _) (x_data_fits _ _ _ _)))
  (conj (x_lin _ _ _ _ _ _ _ _ _ _) (conj (x_lins _ _ _ _ _ _ _) (conj (O _ _ _ _ _ _) (conj (O _ _ _ _ _ _) (O _ _ _ _ _ _)))))).
Qed.
Lemma ex_c57 : exists w m b, world_ok cfg64 2 w /\ tw_good (world_abs 2 w) /\ @nth_error (nat * observation R) (w_ob w) 0 = Some (m, b) /\
  pd (mx 2 2 (kf_P (w_kf w))).
Proof.
have W := rep_ok (x_tw_fits R); have A := rep_abs (x_tw R).
exists (rep (x_tw R)), 1%N, (rep_ob (x_ob1 R)).2; rewrite A; refine (conj W (conj (x_tw_good R) (conj erefl _))).
have -> : mx 2 2 (kf_P (w_kf (rep (x_tw R)))) = x_P R 2 by apply: mx_of.
exact: x_P_pd.
Qed.
End Ex.
