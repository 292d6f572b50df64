(** * predict, control and correct over exact arithmetic *)
From Coq Require Import Lia.
From Verif Require Import Spec Matrix Filter Extended SpecFilter Wp Kernels Access Chol Inv SpecExact SpecHistory Exact Psd CholExact KMath.
From mathcomp Require Import all_ssreflect all_algebra.
Set Implicit Arguments.
Unset Strict Implicit.
Unset Printing Implicit Defensive.
Import Order.TTheory GRing.Theory Num.Theory.
Local Open Scope ring_scope.

Section FilterExact.
Variable R : rcfType.
Implicit Types (c : cfg) (f : kalman R) (o : observation R) (k : control R).
Local Notation N := (@exact_num R).

Lemma st_refl m n (l : seq R) : same_tail m n l l. Proof. by []. Qed.
Lemma st_trans m n (a b d : seq R) : same_tail m n a b -> same_tail m n b d -> same_tail m n a d.
Proof. by move=> [H1 H2] [H3 H4]; split=> [|p Hp]; [rewrite H3|rewrite H4 // H2]. Qed.

(** split conjunctions, without looking inside [valid] and [same_tail] *)
Ltac sp := repeat first [assumption | match goal with |- and _ _ => split end
  | match goal with |- kf_valid _ _ _ => idtac | |- ob_valid _ _ _ _ => idtac | |- ct_valid _ _ _ _ => idtac
    | |- kf_same_model _ _ => idtac | |- kf_same_tail _ _ _ => idtac | |- ob_same_model _ _ => idtac
    | |- ct_same_model _ _ => idtac end; red; simpl];
  try reflexivity; try apply: st_refl.

Lemma predict_P_exact c n f : kf_valid c n f ->
  exists f', predict_P c N n f = Ok f' /\ kf_valid c n f' /\ kf_same_model f f' /\ kf_same_tail n f f' /\
    kf_x f' = kf_x f /\ kf_px f' = kf_px f /\
    mx n n (kf_P f') = mx n n (kf_A f) *m mx n n (kf_P f) *m (mx n n (kf_A f))^T + mx n n (kf_Q f).
Proof.
case: f => A x P Q px tP [/= vA [vx [vP [vQ [vpx vtP]]]]]; rewrite /predict_P /=.
have [tP' [-> [vt [st et]]]] := mult_mx vA vP vtP; rewrite /=.
have [P1 [-> [v1 [s1 e1]]]] := mult_transb_mx vt vA vP; rewrite /=.
have [P2 [-> [v2 [s2 e2]]]] := add_inplace_b_mx vQ v1; rewrite /=.
eexists; split; first reflexivity; sp; [exact: st_trans s1 s2|by rewrite e2 e1 et].
Qed.

Lemma predict_P_tuned_exact c n lam f : lam != 0 -> kf_valid c n f ->
  exists f', predict_P_tuned c N n lam f = Ok f' /\ kf_valid c n f' /\ kf_same_model f f' /\ kf_same_tail n f f' /\
    kf_x f' = kf_x f /\ kf_px f' = kf_px f /\
    mx n n (kf_P f') = (lam ^+ 2)^-1 *: (mx n n (kf_A f) *m mx n n (kf_P f) *m (mx n n (kf_A f))^T) + mx n n (kf_Q f).
Proof.
case: f => A x P Q px tP Hl [/= vA [vx [vP [vQ [vpx vtP]]]]]; rewrite /predict_P_tuned /=.
rewrite /n_recip /= mulf_eq0 orbb (negbTE Hl) /=.
have [tP' [-> [vt [st et]]]] := mult_mx vA vP vtP; rewrite /=.
have [P1 [-> [v1 [s1 e1]]]] := multscale_transb_mx (lam * lam)^-1 vt vA vP; rewrite /=.
have [P2 [-> [v2 [s2 e2]]]] := add_inplace_b_mx vQ v1; rewrite /=.
eexists; split; first reflexivity; sp; [exact: st_trans s1 s2|by rewrite e2 e1 et expr2].
Qed.

Lemma predict_x_exact c n f : (0 < n)%N -> kf_valid c n f ->
  exists f', predict_x c N n f = Ok f' /\ kf_valid c n f' /\ kf_same_model f f' /\ kf_same_tail n f f' /\
    kf_P f' = kf_P f /\ mx n 1 (kf_x f') = mx n n (kf_A f) *m mx n 1 (kf_x f).
Proof.
case: f => A x P Q px tP Hn [/= vA [vx [vP [vQ [vpx vtP]]]]]; rewrite /predict_x /=.
have [p1 [-> [v1 [s1 e1]]]] := mult_rowvector_mx Hn vA vx vpx; rewrite /=.
have [x1 [-> [v2 [s2 e2]]]] := @copy_to_mx R c n 1 _ _ Hn isT v1 vx; rewrite /=.
eexists; split; first reflexivity; sp; by rewrite e2 e1.
Qed.

Lemma predict_exact c n f : (0 < n)%N -> kf_valid c n f ->
  exists f', predict c N n f = Ok f' /\ kf_valid c n f' /\ kf_same_model f f' /\ kf_same_tail n f f' /\
    kf_est n f' = t_predict (mx n n (kf_A f)) (mx n n (kf_Q f)) (kf_est n f).
Proof.
move=> Hn Hf; rewrite /predict.
have [f1 [-> [V1 [[A1 Q1] [[T1 T1'] [P1 x1]]]]]] /= := predict_x_exact Hn Hf.
have [f2 [-> [V2 [[A2 Q2] [[T2 T2'] [x2 [p2 P2]]]]]]] := predict_P_exact V1.
exists f2; split=> //; split=> //; split; first by rewrite /kf_same_model A2 Q2.
split; first by split; [apply: st_trans T1 T2|apply: st_trans T1' T2'].
by rewrite /kf_est /t_predict /= x2 x1 P2 A1 P1 Q1.
Qed.

Lemma predict_tuned_exact c n lam f : (0 < n)%N -> lam != 0 -> kf_valid c n f ->
  exists f', predict_tuned c N n lam f = Ok f' /\ kf_valid c n f' /\ kf_same_model f f' /\ kf_same_tail n f f' /\
    kf_est n f' = t_predict_tuned lam (mx n n (kf_A f)) (mx n n (kf_Q f)) (kf_est n f).
Proof.
move=> Hn Hl Hf; rewrite /predict_tuned.
have [f1 [-> [V1 [[A1 Q1] [[T1 T1'] [P1 x1]]]]]] /= := predict_x_exact Hn Hf.
have [f2 [-> [V2 [[A2 Q2] [[T2 T2'] [x2 [p2 P2]]]]]]] := predict_P_tuned_exact Hl V1.
exists f2; split=> //; split=> //; split; first by rewrite /kf_same_model A2 Q2.
split; first by split; [apply: st_trans T1 T2|apply: st_trans T1' T2'].
by rewrite /kf_est /t_predict_tuned /= x2 x1 P2 A1 P1 Q1.
Qed.

(** λ = 0 panics (there is no reciprocal) *)
Lemma predict_tuned_zero c n f : (0 < n)%N -> kf_valid c n f -> predict_tuned c N n 0 f = Panic NumPanic.
Proof.
move=> Hn Hf; rewrite /predict_tuned.
have [f1 [-> _]] /= := predict_x_exact Hn Hf.
by rewrite /predict_P_tuned /n_recip /= mulr0 eqxx.
Qed.

Lemma predict_x_nl_exact c n F h f : (0 < n)%N -> kf_valid c n f -> @computes R c n n F h ->
  exists f', predict_x_nonlinear c n h f = Ok f' /\ kf_valid c n f' /\ kf_same_model f f' /\ kf_same_tail n f f' /\
    kf_P f' = kf_P f /\ mx n 1 (kf_x f') = F (mx n 1 (kf_x f)).
Proof.
case: f => A x P Q px tP Hn [/= vA [vx [vP [vQ [vpx vtP]]]]] Hh; rewrite /predict_x_nonlinear /=.
have [p1 [-> [v1 e1]]] := Hh _ _ vx vpx; rewrite /=.
have [x1 [-> [v2 [s2 e2]]]] := @copy_to_mx R c n 1 _ _ Hn isT v1 vx; rewrite /=.
eexists; split; first reflexivity; sp; by rewrite e2 e1.
Qed.

Lemma predict_nonlinear_exact c n F h f : (0 < n)%N -> kf_valid c n f -> @computes R c n n F h ->
  exists f', predict_nonlinear c N n h f = Ok f' /\ kf_valid c n f' /\ kf_same_model f f' /\ kf_same_tail n f f' /\
    kf_est n f' = Est (F (e_x (kf_est n f)))
       (mx n n (kf_A f) *m e_P (kf_est n f) *m (mx n n (kf_A f))^T + mx n n (kf_Q f)).
Proof.
move=> Hn Hf Hh; rewrite /predict_nonlinear.
have [f1 [-> [V1 [[A1 Q1] [[T1 T1'] [P1 x1]]]]]] /= := predict_x_nl_exact Hn Hf Hh.
have [f2 [-> [V2 [[A2 Q2] [[T2 T2'] [x2 [p2 P2]]]]]]] := predict_P_exact V1.
exists f2; split=> //; split=> //; split; first by rewrite /kf_same_model A2 Q2.
split; first by split; [apply: st_trans T1 T2|apply: st_trans T1' T2'].
by rewrite /kf_est /= x2 x1 P2 A1 P1 Q1.
Qed.

Lemma predict_tuned_nonlinear_exact c n lam F h f : (0 < n)%N -> lam != 0 -> kf_valid c n f -> @computes R c n n F h ->
  exists f', predict_tuned_nonlinear c N n lam h f = Ok f' /\ kf_valid c n f' /\ kf_same_model f f' /\ kf_same_tail n f f' /\
    kf_est n f' = Est (F (e_x (kf_est n f)))
       ((lam ^+ 2)^-1 *: (mx n n (kf_A f) *m e_P (kf_est n f) *m (mx n n (kf_A f))^T) + mx n n (kf_Q f)).
Proof.
move=> Hn Hl Hf Hh; rewrite /predict_tuned_nonlinear.
have [f1 [-> [V1 [[A1 Q1] [[T1 T1'] [P1 x1]]]]]] /= := predict_x_nl_exact Hn Hf Hh.
have [f2 [-> [V2 [[A2 Q2] [[T2 T2'] [x2 [p2 P2]]]]]]] := predict_P_tuned_exact Hl V1.
exists f2; split=> //; split=> //; split; first by rewrite /kf_same_model A2 Q2.
split; first by split; [apply: st_trans T1 T2|apply: st_trans T1' T2'].
by rewrite /kf_est /= x2 x1 P2 A1 P1 Q1.
Qed.

(** ** control *)
Lemma is_empty_ok c m n (l : seq R) : valid c m n l -> is_empty c m n = Ok (m * n == 0)%N.
Proof.
move=> Hv; have [H1 H2] := valid_bound c m n l Hv.
rewrite /is_empty umul_ok /=; last by apply: PeanoNat.Nat.le_trans H1 _; lia.
by rewrite multE; case: (muln m n) => [|q].
Qed.

Lemma apply_control_exact c n m k (x P : seq R) : ct_valid c n m k -> valid c n 1 x -> valid c n n P ->
  exists k' x' P', apply_control c N n m k x P = Ok (k', x', P') /\ ct_valid c n m k' /\ ct_same_model k k' /\
    valid c n 1 x' /\ valid c n n P' /\ same_tail n 1 x x' /\ same_tail n n P P' /\
    Est (mx n 1 x') (mx n n P') =
    t_control (mx n m (ct_B k)) (mx m 1 (ct_u k)) (mx m m (ct_Q k)) (Est (mx n 1 x) (mx n n P)).
Proof.
case: k => B u Qc BQ [/= vB [vu [vQ vBQ]]] vx vP; rewrite /apply_control /=.
rewrite (is_empty_ok vu) /= muln1.
have Hz : m = 0%N \/ n = 0%N -> Est (mx n 1 x) (mx n n P) =
    t_control (mx n m B) (mx m 1 u) (mx m m Qc) (Est (mx n 1 x) (mx n n P)).
  rewrite /t_control /=; case => H0; congr Est.
  - by subst m; apply/matrixP => i j; rewrite !mxE big_ord0 addr0.
  - by subst m; apply/matrixP => i j; rewrite !mxE big_ord0 addr0.
  - by subst n; apply/matrixP => - [].
  - by subst n; apply/matrixP => - [].
case: (eqVneq m 0%N) => [Hm|Hm] /=.
  do 3 eexists; split; first reflexivity; sp; apply: Hz; by left.
rewrite (is_empty_ok vB) /= muln_eq0 (negbTE Hm) orbF.
case: (eqVneq n 0%N) => [Hn|Hn] /=.
  do 3 eexists; split; first reflexivity; sp; apply: Hz; by right.
have Hm0 : (0 < m)%N by rewrite lt0n.
have [x1 [-> [v1 [s1 e1]]]] := multadd_rowvector_mx Hm0 vB vu vx; rewrite /=.
have [BQ1 [-> [v2 [s2 e2]]]] := mult_mx vB vQ vBQ; rewrite /=.
have [P1 [-> [v3 [s3 e3]]]] := multadd_transb_mx v2 vB vP; rewrite /=.
do 3 eexists; split; first reflexivity; sp.
by rewrite /t_control /= e1 e3 e2.
Qed.

Lemma control_exact c n m k f : ct_valid c n m k -> kf_valid c n f ->
  exists k' f', control_ c N n m k f = Ok (k', f') /\ ct_valid c n m k' /\ ct_same_model k k' /\
    kf_valid c n f' /\ kf_same_model f f' /\ kf_same_tail n f f' /\
    kf_est n f' = t_control (mx n m (ct_B k)) (mx m 1 (ct_u k)) (mx m m (ct_Q k)) (kf_est n f).
Proof.
case: f => A x P Q px tP Hk [/= vA [vx [vP [vQ [vpx vtP]]]]]; rewrite /control_ /=.
have [k' [x' [P' [-> [vk [mk [vx' [vP' [sx [sP E]]]]]]]]]] := apply_control_exact Hk vx vP.
by do 2 eexists; split; first reflexivity; sp; case: mk => [? []].
Qed.

(** ** correct *)
(** what an update does, given the innovation stored in y *)
Lemma update_exact c n m o (x P : seq R) : (0 < n)%N -> (0 < m)%N -> ob_valid c n m o ->
  valid c n 1 x -> valid c n n P ->
  pd (t_S (mx m n (ob_H o)) (mx m m (ob_R o)) (mx n n P)) ->
  exists o' x' P', update_with_innovation c N n m o x P = Ok (o', x', P') /\ ob_valid c n m o' /\ ob_same_model o o' /\
    valid c n 1 x' /\ valid c n n P' /\ same_tail n 1 x x' /\ same_tail n n P P' /\
    Est (mx n 1 x') (mx n n P') =
      t_update (mx m n (ob_H o)) (mx m m (ob_R o)) (mx m 1 (ob_y o)) (Est (mx n 1 x) (mx n n P)) /\
    ob_y o' = ob_y o /\
    mx n m (ob_K o') = t_K (mx m n (ob_H o)) (mx m m (ob_R o)) (mx n n P) /\
    chol_factor (mx m m (ob_S o')) /\
    mx m m (ob_S o') *m (mx m m (ob_S o'))^T = t_S (mx m n (ob_H o)) (mx m m (ob_R o)) (mx n n P).
Proof.
case: o => H z Rm y S K Si HP PHt KHP Hn Hm [/= vH [vz [vR [vy [vS [vK [vSi [vHP [vPHt vKHP]]]]]]]]] vx vP pS.
rewrite /update_with_innovation /=.
have [HP1 [-> [v1 [s1 e1]]]] := mult_mx vH vP vHP; rewrite /=.
have [S1 [-> [v2 [s2 e2]]]] := mult_transb_mx v1 vH vS; rewrite /=.
have [S2 [-> [v3 [s3 e3]]]] := add_inplace_a_mx v2 vR; rewrite /=.
have eS : mx m m S2 = t_S (mx m n H) (mx m m Rm) (mx n n P) by rewrite e3 e2 e1.
have pS2 : pd (mx m m S2) by rewrite eS.
have [ok [S3 [-> [v4 [s4 [ok1 ok2]]]]]] := cholesky_sym Hm v3 (proj1 pS2); rewrite /=.
have [cf fE] := ok2 (proj2 ok1 pS2).
have [Si1 [-> [v5 [s5 e5]]]] := invert_exact Hm v4 vSi cf; rewrite /=.
have [PHt1 [-> [v6 [s6 e6]]]] := mult_transb_mx vP vH vPHt; rewrite /=.
have [K1 [-> [v7 [s7 e7]]]] := mult_mx v6 v5 vK; rewrite /=.
have [x1 [-> [v8 [s8 e8]]]] := multadd_rowvector_mx Hm v7 vy vx; rewrite /=.
have [HP2 [-> [v9 [s9 e9]]]] := mult_mx vH vP v1; rewrite /=.
have [KHP1 [-> [v10 [s10 e10]]]] := mult_mx v7 v9 vKHP; rewrite /=.
have [P1 [-> [v11 [s11 e11]]]] := sub_inplace_a_mx vP v10; rewrite /=.
have eK : mx n m K1 = t_K (mx m n H) (mx m m Rm) (mx n n P) by rewrite e7 e6 e5 fE eS.
do 3 eexists; split; first reflexivity; sp.
- by rewrite /t_update /= e8 e11 e10 e9 eK.
- by rewrite fE eS.
Qed.

Lemma obs_correct_exact c n m o (x P : seq R) : (0 < n)%N -> (0 < m)%N -> ob_valid c n m o ->
  valid c n 1 x -> valid c n n P ->
  pd (t_S (mx m n (ob_H o)) (mx m m (ob_R o)) (mx n n P)) ->
  exists o' x' P', obs_correct c N n m o x P = Ok (o', x', P') /\ ob_valid c n m o' /\ ob_same_model o o' /\
    valid c n 1 x' /\ valid c n n P' /\ same_tail n 1 x x' /\ same_tail n n P P' /\
    Est (mx n 1 x') (mx n n P') =
      t_correct (mx m n (ob_H o)) (mx m m (ob_R o)) (mx m 1 (ob_z o)) (Est (mx n 1 x) (mx n n P)) /\
    mx m 1 (ob_y o') = mx m 1 (ob_z o) - mx m n (ob_H o) *m mx n 1 x /\
    mx n m (ob_K o') = t_K (mx m n (ob_H o)) (mx m m (ob_R o)) (mx n n P) /\
    chol_factor (mx m m (ob_S o')) /\
    mx m m (ob_S o') *m (mx m m (ob_S o'))^T = t_S (mx m n (ob_H o)) (mx m m (ob_R o)) (mx n n P).
Proof.
case: o => H z Rm y S K Si HP PHt KHP Hn Hm [/= vH [vz [vR [vy [vS [vK [vSi [vHP [vPHt vKHP]]]]]]]]] vx vP pS.
rewrite /obs_correct /=.
have [y1 [-> [v1 [s1 e1]]]] := mult_rowvector_mx Hn vH vx vy; rewrite /=.
have [y2 [-> [v2 [s2 e2]]]] := sub_inplace_b_mx vz v1; rewrite /= /set_y /=.
set o := mk_obs H z Rm y2 S K Si HP PHt KHP.
have vo : ob_valid c n m o by sp.
have [o' [x' [P' [-> [A1 [A2 [A3 [A4 [A5 [A6 [A7 [A8 [A9 [A10 A11]]]]]]]]]]]]]] := @update_exact c n m o x P Hn Hm vo vx vP pS.
exists o', x', P'; split=> //; sp.
- by rewrite A7 /t_correct /= e2 e1.
- by rewrite A8 /= e2 e1.
Qed.

Lemma correct_exact c n m o f : (0 < n)%N -> (0 < m)%N -> ob_valid c n m o -> kf_valid c n f ->
  pd (t_S (mx m n (ob_H o)) (mx m m (ob_R o)) (mx n n (kf_P f))) ->
  exists o' f', correct c N n m o f = Ok (o', f') /\ ob_valid c n m o' /\ ob_same_model o o' /\
    kf_valid c n f' /\ kf_same_model f f' /\ kf_same_tail n f f' /\
    kf_est n f' = t_correct (mx m n (ob_H o)) (mx m m (ob_R o)) (mx m 1 (ob_z o)) (kf_est n f) /\
    mx m 1 (ob_y o') = mx m 1 (ob_z o) - mx m n (ob_H o) *m mx n 1 (kf_x f) /\
    mx n m (ob_K o') = t_K (mx m n (ob_H o)) (mx m m (ob_R o)) (mx n n (kf_P f)) /\
    chol_factor (mx m m (ob_S o')) /\
    mx m m (ob_S o') *m (mx m m (ob_S o'))^T = t_S (mx m n (ob_H o)) (mx m m (ob_R o)) (mx n n (kf_P f)).
Proof.
case: f => A x P Q px tP Hn Hm Ho [/= vA [vx [vP [vQ [vpx vtP]]]]] pS; rewrite /correct /=.
have [o' [x' [P' [-> [A1 [A2 [A3 [A4 [A5 [A6 [A7 [A8 [A9 [A10 A11]]]]]]]]]]]]]] := obs_correct_exact Hn Hm Ho vx vP pS.
by do 2 eexists; split; first reflexivity; sp; case: A2 => [? []].
Qed.

(** any innovation function *)
Lemma obs_correct_nonlinear_exact c n m F h o (x P : seq R) : (0 < n)%N -> (0 < m)%N -> ob_valid c n m o ->
  valid c n 1 x -> valid c n n P -> @computes R c m n F h ->
  pd (t_S (mx m n (ob_H o)) (mx m m (ob_R o)) (mx n n P)) ->
  exists o' x' P', obs_correct_nonlinear c N n m h o x P = Ok (o', x', P') /\ ob_valid c n m o' /\ ob_same_model o o' /\
    valid c n 1 x' /\ valid c n n P' /\ same_tail n 1 x x' /\ same_tail n n P P' /\
    Est (mx n 1 x') (mx n n P') =
      t_update (mx m n (ob_H o)) (mx m m (ob_R o)) (mx m 1 (ob_z o) - F (mx n 1 x)) (Est (mx n 1 x) (mx n n P)) /\
    mx m 1 (ob_y o') = mx m 1 (ob_z o) - F (mx n 1 x) /\
    mx n m (ob_K o') = t_K (mx m n (ob_H o)) (mx m m (ob_R o)) (mx n n P).
Proof.
case: o => H z Rm y S K Si HP PHt KHP Hn Hm [/= vH [vz [vR [vy [vS [vK [vSi [vHP [vPHt vKHP]]]]]]]]] vx vP Hh pS.
rewrite /obs_correct_nonlinear /=.
have [y1 [-> [v1 e1]]] := Hh _ _ vx vy; rewrite /=.
have [y2 [-> [v2 [s2 e2]]]] := sub_inplace_b_mx vz v1; rewrite /= /set_y /=.
set o := mk_obs H z Rm y2 S K Si HP PHt KHP.
have vo : ob_valid c n m o by sp.
have [o' [x' [P' [-> [A1 [A2 [A3 [A4 [A5 [A6 [A7 [A8 [A9 [A10 A11]]]]]]]]]]]]]] := @update_exact c n m o x P Hn Hm vo vx vP pS.
exists o', x', P'; split=> //; sp.
- by rewrite A7 /= e2 e1.
- by rewrite A8 /= e2 e1.
Qed.

Lemma correct_nonlinear_exact c n m F h o f : (0 < n)%N -> (0 < m)%N -> ob_valid c n m o -> kf_valid c n f ->
  @computes R c m n F h ->
  pd (t_S (mx m n (ob_H o)) (mx m m (ob_R o)) (mx n n (kf_P f))) ->
  exists o' f', correct_nonlinear c N n m h o f = Ok (o', f') /\ ob_valid c n m o' /\ ob_same_model o o' /\
    kf_valid c n f' /\ kf_same_model f f' /\ kf_same_tail n f f' /\
    kf_est n f' = t_update (mx m n (ob_H o)) (mx m m (ob_R o)) (mx m 1 (ob_z o) - F (mx n 1 (kf_x f))) (kf_est n f) /\
    mx m 1 (ob_y o') = mx m 1 (ob_z o) - F (mx n 1 (kf_x f)) /\
    mx n m (ob_K o') = t_K (mx m n (ob_H o)) (mx m m (ob_R o)) (mx n n (kf_P f)).
Proof.
case: f => A x P Q px tP Hn Hm Ho [/= vA [vx [vP [vQ [vpx vtP]]]]] Hh pS; rewrite /correct_nonlinear /=.
have [o' [x' [P' [-> [A1 [A2 [A3 [A4 [A5 [A6 [A7 [A8 A9]]]]]]]]]]]] := obs_correct_nonlinear_exact Hn Hm Ho vx vP Hh pS.
by do 2 eexists; split; first reflexivity; sp; case: A2 => [? []].
Qed.

End FilterExact.
