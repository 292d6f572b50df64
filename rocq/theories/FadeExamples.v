(** * A concrete program meeting the hypotheses of the forgetting theorems *)
From Verif Require Import Spec Matrix Filter Extended SpecFilter History SpecGen SpecExact SpecHistory SpecWorld SpecMap SpecFade Zmod Psd KMath HistGen FilterExact HistExact WorldMath MapMath Forget Fade.
From Verif Require Import ExampleData Represent ExactExamples MapExamples.
From mathcomp Require Import all_ssreflect all_algebra.
Set Implicit Arguments.
Unset Strict Implicit.
Unset Printing Implicit Defensive.
Import Order.TTheory GRing.Theory Num.Theory.
Local Open Scope ring_scope.

Section FadeExamples.
Variable R : rcfType.
Definition f_ts : seq (top R 2) := [:: TPredict; TControl 0; TCorrect 0; TTuned 2%:R; TCorrect 1; TPredict].
Definition f_tw k : tworld R 2 := x_gen (const_mx k%:R) (k%:R *: x_P R 2) 1%:M (const_mx 3%:R) (x_P R 1) (const_mx 5%:R) (x_P R 1) (const_mx 7%:R) (x_P R 2).
Local Notation I2 := (1%:M : 'M[R]_2).

Local Notation E00 := (delta_mx 0 0 : 'M[R]_2).
Local Notation E01 := (delta_mx 0 1 : 'M[R]_2).
Local Notation E10 := (delta_mx 1 0 : 'M[R]_2).
Local Notation E11 := (delta_mx 1 1 : 'M[R]_2).
Lemma one2 : I2 = E00 + E11.
Proof. by apply/matrixP => i j; rewrite !mxE; case: i => [[|[|//]] ?]; case: j => [[|[|//]] ?] /=; rewrite ?addr0 ?add0r. Qed.
Lemma all2 : (const_mx 1 : 'M[R]_2) = E00 + E01 + E10 + E11.
Proof. by apply/matrixP => i j; rewrite !mxE; case: i => [[|[|//]] ?]; case: j => [[|[|//]] ?] /=; rewrite ?addr0 ?add0r. Qed.
Lemma threeI : 3%:R *: I2 = I2 + I2 + I2.
Proof. by rewrite scaler_nat !mulrS mulr0n addr0 addrA. Qed.

Lemma AA_le : lemx (x_A R *m (x_A R)^T) (3%:R *: I2).
Proof.
rewrite /lemx; have -> : 3%:R *: I2 - x_A R *m (x_A R)^T = (I2 - E10) *m (I2 - E10)^T.
  rewrite threeI /x_A !linearD /= linearN /= trmx1 !trmx_delta.
  rewrite !(mulmxDl, mulmxDr, mulmxBl, mulmxBr, mulmxN, mulNmx, mul1mx, mulmx1, mul_delta_mx).
  by rewrite {1}one2; mxzmod.
exact: psd_gram.
Qed.
Lemma P_le : lemx (x_P R 2) (3%:R *: I2).
Proof.
rewrite /lemx; have -> : 3%:R *: I2 - x_P R 2 = (E00 - E10) *m (E00 - E10)^T.
  rewrite threeI /x_P all2 linearB /= !trmx_delta.
  rewrite !(mulmxDl, mulmxDr, mulmxBl, mulmxBr, mulmxN, mulNmx, mul_delta_mx).
  by rewrite one2; mxzmod.
exact: psd_gram.
Qed.

(** a bound on the covariance, call by call *)
Lemma scal_congr (A : 'M[R]_2) p : A *m (p *: I2) *m A^T = p *: (A *m A^T).
Proof. by rewrite -scalemxAr mulmx1 -scalemxAl. Qed.
Lemma APA_le P p : 0 <= p -> lemx P (p *: I2) -> lemx (x_A R *m P *m (x_A R)^T) ((3%:R * p) *: I2).
Proof.
move=> p0 L; apply: lemx_trans (lemx_congr (x_A R) L) _; rewrite scal_congr mulrC -scalerA; apply: lemxZ => //; exact: AA_le.
Qed.
Lemma APAn_le P a : lemx P (a%:R *: I2) -> lemx (x_A R *m P *m (x_A R)^T) ((3%:R * a%:R) *: I2).
Proof. by apply: APA_le; exact: ler0n. Qed.
Lemma le_scal p q : p <= q -> lemx (p *: I2) (q *: I2).
Proof. by move=> pq; rewrite /lemx -scalerBl; apply: psdZ; [rewrite subr_ge0|exact: one_psd]. Qed.
Lemma noise_enough X p th : 0 <= th -> lemx X (p *: I2) -> th * p <= 1 -> lemx (th *: X) I2.
Proof.
move=> t0 L h; apply: lemx_trans (lemxZ t0 L) _; rewrite scalerA -{2}[I2]scale1r; exact: le_scal.
Qed.

Lemma corr_le m (H : 'M[R]_(m, 2)) z Rm s B : pd (e_P s) -> pd Rm -> lemx (e_P s) B -> lemx (e_P (t_correct H Rm z s)) B.
Proof.
move=> pP pR L; rewrite t_correct_P; apply: lemx_trans L.
by apply: correct_decreases; [case: pP|apply: S_pd => //; exact: pd_psd].
Qed.

Section Start.
Variable k : nat.
Hypothesis k1 : (0 < k)%N.
Hypothesis k2 : (k <= 2)%N.
Lemma f_pd : pd (e_P (tw_s (f_tw k))).
Proof. by apply: pdZ; [rewrite ltr0n|exact: x_P_pd]. Qed.
Let st (w : tworld R 2) t : pd (e_P (tw_s w)) -> ls_op w t -> pd (e_P (tw_s (tstep w t))).
Proof. by move=> a b; have [] := step_ls 0 a b. Qed.

Lemma f_ok : ls_ops (f_tw k) f_ts /\ noisy (200%:R)^-1 (f_tw k) f_ts.
Proof.
have uA := x_A_unit R; have q1 := one_psd R 2.
have p0 := f_pd; have r1 := x_P_pd R 1; have r2 := x_P_pd R 2; have c1 := x_P_psd R 1.
have t0 : 0 <= (200%:R : R)^-1 by rewrite invr_ge0 ler0n.
have tb (a : nat) : (a <= 200)%N -> (200%:R)^-1 * (a%:R : R) <= 1.
  by move=> ha; rewrite mulrC ler_pdivr_mulr ?ltr0n // mul1r ler_nat.
have b0 : lemx (e_P (tw_s (f_tw k))) (6%:R *: 1%:M).
  rewrite /=; apply: lemx_trans (lemxZ (ler0n _ _) P_le) _; rewrite scalerA -natrM; apply: le_scal.
  by rewrite ler_nat; apply: (@leq_trans (2 * 3)); rewrite ?leq_mul2r.
have n1 : noisy_op (200%:R)^-1 (f_tw k) TPredict.
  apply: (@noise_enough _ (3%:R * 6%:R)) => //; first exact: APAn_le.
  by rewrite -natrM; apply: tb.
have o1 : ls_op (f_tw k) TPredict by split; [exact: q1|exact: predict_pd].
have b1 : lemx (e_P (tw_s (tstep (f_tw k) TPredict))) (19%:R *: 1%:M).
  rewrite (_ : 19%:R = 3%:R * 6%:R + 1 :> R); last by rewrite -natrM -(natrD _ _ 1).
  rewrite scalerDl scale1r; apply: lemxD; [exact: APAn_le|exact: lemx_refl].
have p1 := st p0 o1; set w1 := tstep _ _ in p1 b1 *.
have o2 : ls_op w1 (TControl 0) by exact: c1.
have b2 : lemx (e_P (tw_s (tstep w1 (TControl 0)))) (21%:R *: 1%:M).
  rewrite (_ : 21%:R = 19%:R + 2%:R :> R); last by rewrite -natrD.
  rewrite scalerDl; apply: lemxD => //.
  have -> : x_P R 1 = 2%:R *: 1%:M.
    by apply/matrixP => i j; rewrite !ord1 !mxE /= mulr1 -(natrD _ 1 1).
  rewrite -scalemxAr mulmx1 -scalemxAl; apply: lemxZ; first exact: ler0n.
  rewrite trmx_delta mul_delta_mx one2 /lemx addrK.
  by have := @psd_gram R 2 1 (delta_mx 0 0); rewrite trmx_delta mul_delta_mx.
have p2 := st p1 o2; set w2 := tstep _ _ in p2 b2 *.
have h1 : (0 < 1)%N by []. have h2 : (0 < 2)%N by [].
have o3 : ls_op w2 (TCorrect 0) by exact: (conj h1 r1).
have b3 : lemx (e_P (tw_s (tstep w2 (TCorrect 0)))) (21%:R *: 1%:M) by exact: (corr_le _ _ p2 r1 b2).
have p3 := st p2 o3; set w3 := tstep _ _ in p3 b3 *.
have n4 : noisy_op (200%:R)^-1 w3 (TTuned 2%:R).
  apply: (@noise_enough _ ((2%:R ^+ 2)^-1 * (3%:R * 21%:R))) => //.
    by rewrite -scalerA; apply: lemxZ; [rewrite invr_ge0 sqr_ge0|exact: APAn_le].
  rewrite -natrM mulrCA ler_pdivr_mull -?natrX ?ltr0n // mulr1.
  by apply: le_trans (tb _ _) _ => //; rewrite (ler_nat _ 1).
have o4 : ls_op w3 (TTuned 2%:R) by split; [exact: two_neq0|split; [exact: q1|apply: tuned_pd => //; exact: two_neq0]].
have b4 : lemx (e_P (tw_s (tstep w3 (TTuned 2%:R)))) (64%:R *: 1%:M).
  rewrite (_ : 64%:R = 3%:R * 21%:R + 1 :> R); last by rewrite -natrM -(natrD _ _ 1).
  rewrite scalerDl scale1r; apply: lemxD; last exact: lemx_refl.
  have := APA_le (ler0n _ 21) b3 => L; apply: lemx_trans (lemxZ _ L) _; first by rewrite invr_ge0 sqr_ge0.
  rewrite scalerA; apply: le_scal; rewrite ler_pimull ?mulr_ge0 ?ler0n // invf_le1 -?natrX ?ltr0n //.
  by rewrite (ler_nat _ 1).
have p4 := st p3 o4; set w4 := tstep _ _ in p4 b4 *.
have o5 : ls_op w4 (TCorrect 1) by exact: (conj h2 r2).
have b5 : lemx (e_P (tw_s (tstep w4 (TCorrect 1)))) (64%:R *: 1%:M) by exact: (corr_le _ _ p4 r2 b4).
have p5 := st p4 o5; set w5 := tstep _ _ in p5 b5 *.
have o6 : ls_op w5 TPredict by split; [exact: q1|exact: predict_pd].
have n6 : noisy_op (200%:R)^-1 w5 TPredict.
  apply: (@noise_enough _ (3%:R * 64%:R)) => //; first exact: APAn_le.
  by rewrite -natrM; apply: tb.
split.
- exact: (conj o1 (conj o2 (conj o3 (conj o4 (conj o5 (conj o6 I)))))).
- exact: (conj n1 (conj I (conj I (conj n4 (conj I (conj n6 I)))))).
Qed.
End Start.

Lemma fade_state_example : exists (w1 w2 : world R) os1 os2, world_ok cfg64 2 w1 /\ world_ok cfg64 2 w2 /\
  List.Forall2 (@denotes R cfg64 2 w1) os1 f_ts /\ List.Forall2 (@denotes R cfg64 2 w2) os2 f_ts /\
  world_abs 2 w2 = tw_est (world_abs 2 w1) (Est (mx 2 1 (kf_x (w_kf w2))) (mx 2 2 (kf_P (w_kf w1)))) /\
  pd (mx 2 2 (kf_P (w_kf w1))) /\ ls_ops (world_abs 2 w1) f_ts /\ noisy (200%:R)^-1 (world_abs 2 w1) f_ts /\
  mx 2 1 (kf_x (w_kf w1)) <> mx 2 1 (kf_x (w_kf w2)) /\ predictions f_ts = 3%N.
Proof.
pose t2 : tworld R 2 := x_gen (const_mx 100%:R) (1%:R *: x_P R 2) 1%:M (const_mx 3%:R) (x_P R 1) (const_mx 5%:R) (x_P R 1) (const_mx 7%:R) (x_P R 2).
have [w1 [os1 [W1 [A1 D1]]]] := @rep_program R cfg64 2 (f_tw 1) f_ts (x_gen_fits _ _ _ _ _ _ _ _ _).
have [w2 [os2 [W2 [A2 D2]]]] := @rep_program R cfg64 2 t2 f_ts (x_gen_fits _ _ _ _ _ _ _ _ _).
exists w1, w2, os1, os2; do 4 split=> //.
rewrite -[mx 2 2 _]/(e_P (tw_s (world_abs 2 w1))) -[mx 2 1 (kf_x (w_kf w2))]/(e_x (tw_s (world_abs 2 w2))) -[mx 2 1 _]/(e_x (tw_s (world_abs 2 w1))) A1 A2.
have [a b] := @f_ok 1 isT isT; do 2 split=> //; first exact: f_pd.
split=> //; split=> //; split=> //.
by move=> /= /matrixP /(_ 0 0); rewrite !mxE => /eqP; rewrite eqr_nat.
Qed.

Lemma fade_cov_example : exists (w1 w2 : world R) os1 os2, world_ok cfg64 2 w1 /\ world_ok cfg64 2 w2 /\
  List.Forall2 (@denotes R cfg64 2 w1) os1 f_ts /\ List.Forall2 (@denotes R cfg64 2 w2) os2 f_ts /\
  world_abs 2 w2 = tw_est (world_abs 2 w1) (Est (mx 2 1 (kf_x (w_kf w2))) (mx 2 2 (kf_P (w_kf w2)))) /\
  pd (mx 2 2 (kf_P (w_kf w1))) /\ pd (mx 2 2 (kf_P (w_kf w2))) /\ ls_ops (world_abs 2 w1) f_ts /\ ls_ops (world_abs 2 w2) f_ts /\
  noisy (200%:R)^-1 (world_abs 2 w1) f_ts /\ noisy (200%:R)^-1 (world_abs 2 w2) f_ts /\
  lemx (mx 2 2 (kf_P (w_kf w2))) (2%:R *: mx 2 2 (kf_P (w_kf w1))) /\ lemx (mx 2 2 (kf_P (w_kf w1))) (2%:R *: mx 2 2 (kf_P (w_kf w2))) /\
  mx 2 2 (kf_P (w_kf w1)) <> mx 2 2 (kf_P (w_kf w2)) /\ predictions f_ts = 3%N.
Proof.
have [w1 [os1 [W1 [A1 D1]]]] := @rep_program R cfg64 2 (f_tw 1) f_ts (x_gen_fits _ _ _ _ _ _ _ _ _).
have [w2 [os2 [W2 [A2 D2]]]] := @rep_program R cfg64 2 (f_tw 2) f_ts (x_gen_fits _ _ _ _ _ _ _ _ _).
exists w1, w2, os1, os2; do 4 split=> //.
rewrite -[mx 2 2 (kf_P (w_kf w1))]/(e_P (tw_s (world_abs 2 w1))) -[mx 2 2 _]/(e_P (tw_s (world_abs 2 w2))) -[mx 2 1 (kf_x (w_kf w2))]/(e_x (tw_s (world_abs 2 w2))) A1 A2.
have [a b] := @f_ok 1 isT isT; have [a2 b2] := @f_ok 2 isT isT; split=> //; split; first exact: f_pd.
split; first exact: f_pd.
do 4 split=> //; split; first by rewrite /= scale1r; exact: lemx_refl.
split; first by rewrite /= scale1r scalerA -natrM -{1}[x_P R 2]scale1r /lemx -scalerBl; apply: psdZ; [rewrite subr_ge0 (ler_nat _ 1)|exact: x_P_psd].
split=> //.
by move=> /= /matrixP /(_ 0 0); rewrite !mxE /= => /eqP; rewrite -(natrD _ 1 1) -!natrM eqr_nat.
Qed.
End FadeExamples.
