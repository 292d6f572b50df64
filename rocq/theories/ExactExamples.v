(** * Concrete systems for the examples beside the exact-arithmetic theorems *)
From Verif Require Import Spec Matrix Filter Extended SpecFilter History SpecGen SpecExact SpecHistory SpecWorld Psd ExampleData Represent.
From mathcomp Require Import all_ssreflect all_algebra.
Set Implicit Arguments.
Unset Strict Implicit.
Unset Printing Implicit Defensive.
Import Order.TTheory GRing.Theory Num.Theory.
Local Open Scope ring_scope.

Section ExactExamples.
Variable R : rcfType.

(** a definite, non-diagonal covariance: ones everywhere, twos on the diagonal *)
Definition x_P m : 'M[R]_m := 1%:M + const_mx 1.
Lemma x_P_pd m : pd (x_P m).
Proof.
rewrite /x_P addrC; apply: pdD; last exact: pd1.
have -> : (const_mx 1 : 'M[R]_m) = (const_mx 1 : 'cV[R]_m) *m (const_mx 1 : 'cV[R]_m)^T.
  by apply/matrixP => i j; rewrite mxE [RHS]mxE big_ord1 !mxE mulr1.
exact: psd_gram.
Qed.
(** a shear *)
Definition x_A : 'M[R]_2 := 1%:M + delta_mx 0 1.
Lemma x_A_unit : x_A \in unitmx.
Proof.
have : x_A *m (1%:M - delta_mx 0 1) = 1%:M.
  rewrite /x_A mulmxDl mul1mx mulmxBr mulmx1 mul_delta_mx_0 // subr0.
  by rewrite -addrA [- _ + _]addrC subrr addr0.
by case/mulmx1_unit.
Qed.

(** two states (position, velocity), one control input, a one-component and a two-component observation *)
Definition x_ct : tctl R 2 := TCtl (delta_mx 1 0 : 'M[R]_(2, 1)) (const_mx 3) (x_P 1).
Definition x_ob1 : tobs R 2 := TObs (delta_mx 0 0 : 'M[R]_(1, 2)) (const_mx 5) (x_P 1).
Definition x_ob2 : tobs R 2 := TObs (x_A : 'M[R]_2) (const_mx 7) (x_P 2).
Definition x_tw : tworld R 2 := TW x_A 1%:M (Est (const_mx 2) (x_P 2)) [:: x_ct] [:: x_ob1; x_ob2].

Lemma ct_fits64 m (B : 'M[R]_(2, m)) u Q : (m <= 10)%N -> ct_fits cfg64 (TCtl B u Q).
Proof.
move=> Hm; split; [apply: fits64|split; apply: fits64].
- by apply: (@leq_trans (2 * 10)); rewrite ?leq_mul.
- by apply: (@leq_trans (10 * 1)); rewrite ?leq_mul.
- by apply: (@leq_trans (10 * 10)); rewrite ?leq_mul.
Qed.
Lemma ob_fits64 m (H : 'M[R]_(m, 2)) z Q : (0 < m)%N -> (m <= 10)%N -> ob_fits cfg64 (TObs H z Q).
Proof.
move=> H0 Hm; split; [exact: H0|split; [apply: fits64|split; [apply: fits64|split; apply: fits64]]].
- by apply: (@leq_trans (2 * 10)); rewrite ?leq_mul.
- by apply: (@leq_trans (10 * 2)); rewrite ?leq_mul.
- by apply: (@leq_trans (10 * 1)); rewrite ?leq_mul.
- by apply: (@leq_trans (10 * 10)); rewrite ?leq_mul.
Qed.
Definition x_gen x0 P0 Q0 u0 Qc z1 R1 z2 R2 : tworld R 2 :=
  TW x_A Q0 (Est x0 P0) [:: TCtl (delta_mx 1 0 : 'M[R]_(2, 1)) u0 Qc]
     [:: TObs (delta_mx 0 0 : 'M[R]_(1, 2)) z1 R1; TObs (x_A : 'M[R]_2) z2 R2].
Lemma x_gen_fits x0 P0 Q0 u0 Qc z1 R1 z2 R2 : tw_fits cfg64 (x_gen x0 P0 Q0 u0 Qc z1 R1 z2 R2).
Proof.
have Hn : (0 < 2)%N by [].
have H1 : fits cfg64 2 1 by apply: fits64.
have H2 : fits cfg64 2 2 by apply: fits64.
refine (conj Hn (conj H1 (conj H2 (conj _ _)))).
  apply: List.Forall_cons; [exact: ct_fits64|exact: List.Forall_nil].
apply: List.Forall_cons; [exact: ob_fits64|apply: List.Forall_cons; [exact: ob_fits64|exact: List.Forall_nil]].
Qed.
Lemma x_tw_fits : tw_fits cfg64 x_tw.
Proof. exact: x_gen_fits. Qed.
Lemma x_gen_good x0 P0 Q0 u0 Qc z1 R1 z2 R2 : psd P0 -> psd Q0 -> psd Qc -> pd R1 -> pd R2 ->
  tw_good (x_gen x0 P0 Q0 u0 Qc z1 R1 z2 R2).
Proof.
move=> pP pQ pC p1 p2; refine (conj pP (conj pQ (conj _ _))).
  apply: List.Forall_cons; [exact: pC|exact: List.Forall_nil].
have H1 : (0 < 1)%N by []. have H2 : (0 < 2)%N by [].
apply: List.Forall_cons; [exact: (conj H1 p1)|apply: List.Forall_cons; [exact: (conj H2 p2)|exact: List.Forall_nil]].
Qed.
Lemma x_P_psd m : psd (x_P m).
Proof. exact/pd_psd/x_P_pd. Qed.
Lemma one_psd m : psd (1%:M : 'M[R]_m).
Proof. exact/pd_psd/pd1. Qed.
Lemma x_tw_good : tw_good x_tw.
Proof. exact: x_gen_good (x_P_psd _) (one_psd _) (x_P_psd _) (x_P_pd _) (x_P_pd _). Qed.

(** a history using every kind of call *)
Definition x_ts : seq (top R 2) :=
  [:: TPredict; TControl 0; TCorrect 0; TSetZ 1 (fun m => const_mx 9); TCorrect 1; TTuned 2%:R;
      TPredictNl (fun x => x + x); TSetR 0 (fun m => x_P m); TCorrectNl 1 (fun m x => const_mx (x 0 0));
      TSetP (x_P 2); TSetCQ 0 (fun m => x_P m); TSetU 0 (fun m => const_mx 4); TControl 0; TTunedNl 2%:R (fun x => - x);
      TSetA x_A; TSetX (const_mx 8); TSetH 0 (fun m => const_mx 1); TSetB 0 (fun m => const_mx 1); TSetQ 1%:M; TCorrect 0].
Lemma two_neq0 : (2%:R : R) != 0.
Proof. by rewrite pnatr_eq0. Qed.
Ltac conjs tac := repeat match goal with |- _ => apply: conj; [solve [tac]|] end; try exact I.
Lemma x_ts_good : ops_good x_tw x_ts.
Proof.
conjs ltac:(first [exact I|exact: two_neq0|exact: (x_P_psd 2)|exact: (x_P_psd 1)|exact: (one_psd 2)|exact: (x_P_pd 1)|exact: (x_P_pd 2)]).
Qed.

(** the same system and history, all covariances doubled: ordered *)
Definition x_tw2 : tworld R 2 := tw_scale 2%:R x_tw.
Definition x_ts2 : seq (top R 2) := List.map (op_scale 2%:R) x_ts.
Lemma le2 m (M : 'M[R]_m) : psd M -> lemx M (2%:R *: M).
Proof. by move=> pM; rewrite /lemx scaler_nat mulr2n addrK. Qed.
Lemma psd2 m (M : 'M[R]_m) : psd M -> psd (2%:R *: M).
Proof. by apply: psdZ; rewrite ler0n. Qed.
Lemma pd2 m (M : 'M[R]_m) : pd M -> pd (2%:R *: M).
Proof.
move=> pM; have -> : 2%:R *: M = M + M by rewrite scaler_nat mulr2n.
by apply: pdD => //; apply: pd_psd.
Qed.
Lemma x_tw2_fits : tw_fits cfg64 x_tw2.
Proof. exact: x_gen_fits. Qed.
Lemma x_tw2_good : tw_good x_tw2.
Proof. exact: x_gen_good (psd2 (x_P_psd _)) (psd2 (one_psd _)) (psd2 (x_P_psd _)) (pd2 (x_P_pd _)) (pd2 (x_P_pd _)). Qed.
Lemma x_ts2_good : ops_good x_tw2 x_ts2.
Proof.
conjs ltac:(first [exact I|exact: two_neq0|exact: (psd2 (x_P_psd 2))|exact: (psd2 (x_P_psd 1))|exact: (psd2 (one_psd 2))
  |exact: (pd2 (x_P_pd 1))|exact: (pd2 (x_P_pd 2))]).
Qed.
Lemma x_tw_le : tw_le x_tw x_tw2.
Proof.
refine (conj erefl (conj (le2 (one_psd _)) (conj (le2 (x_P_psd _)) (conj _ _)))).
  apply: List.Forall2_cons; [apply: CtlLe; exact: le2 (x_P_psd _)|exact: List.Forall2_nil].
apply: List.Forall2_cons; first by apply: ObsLe; exact: le2 (x_P_psd _).
apply: List.Forall2_cons; [apply: ObsLe; exact: le2 (x_P_psd _)|exact: List.Forall2_nil].
Qed.
Lemma x_ts_le : tops_le x_tw x_ts x_ts2.
Proof.
conjs ltac:(first [exact I|reflexivity|exact: (le2 (x_P_psd 2))|exact: (le2 (one_psd 2))
  |exact: (conj erefl (le2 (x_P_psd 1)))|exact: (conj erefl (le2 (x_P_psd 2)))]).
Qed.

(** superposition: two more systems which differ from [x_tw] in the data only *)
Definition x_data (x0 u0 z1 z2 : R) : tworld R 2 :=
  TW x_A 1%:M (Est (const_mx x0) (x_P 2)) [:: TCtl (delta_mx 1 0 : 'M[R]_(2, 1)) (const_mx u0) (x_P 1)]
     [:: TObs (delta_mx 0 0 : 'M[R]_(1, 2)) (const_mx z1) (x_P 1); TObs (x_A : 'M[R]_2) (const_mx z2) (x_P 2)].
Definition x_datas (u0 z0 : R) : seq (top R 2) :=
  [:: TPredict; TSetU 0 (fun m => const_mx u0); TControl 0; TCorrect 0; TSetZ 1 (fun m => const_mx z0); TCorrect 1; TTuned 2%:R].
Lemma const_lin m k (a b p q : R) : const_mx (a * p + b * q) = a *: const_mx p + b *: const_mx q :> 'M[R]_(m, k).
Proof. by apply/matrixP => i j; rewrite !mxE. Qed.
Lemma x_lin a b p1 p2 p3 p4 q1 q2 q3 q4 :
  tw_lin a b (x_data p1 p2 p3 p4) (x_data q1 q2 q3 q4)
         (x_data (a * p1 + b * q1) (a * p2 + b * q2) (a * p3 + b * q3) (a * p4 + b * q4)).
Proof.
rewrite /tw_lin /= const_lin; do 7 split=> //; split; rewrite !const_lin; do !constructor.
Qed.
Lemma x_lins a b u1 u2 z1 z2 w : tops_lin a b w (x_datas u1 z1) (x_datas u2 z2) (x_datas (a * u1 + b * u2) (a * z1 + b * z2)).
Proof.
conjs ltac:(first [exact I|split; reflexivity|cbn [top_lin]; do 2 (split; first reflexivity); case: nth_error; [intro; exact: const_lin|exact I]]).
Qed.
Lemma x_data_fits x0 u0 z1 z2 : tw_fits cfg64 (x_data x0 u0 z1 z2).
Proof. exact: x_gen_fits. Qed.
Lemma x_data_good x0 u0 z1 z2 : tw_good (x_data x0 u0 z1 z2).
Proof. exact: x_gen_good (x_P_psd _) (one_psd _) (x_P_psd _) (x_P_pd _) (x_P_pd _). Qed.
Lemma x_datas_good u0 z0 w : ops_good w (x_datas u0 z0).
Proof. by rewrite /x_datas; do !split; apply: two_neq0. Qed.

(** a noise-free history *)
Definition x_quiet : seq (top R 2 * 'cV[R]_2) :=
  [:: (TSetZ 0 (fun m => const_mx 2), 0); (TCorrect 0, 0); (TControl 0, 0); (TPredict, 0);
      (TPredictNl (fun x => x + x), 0)].
Lemma x_quiet_ok : noise_free x_tw (const_mx 2) x_quiet.
Proof.
split; first by split. split.
  split; first by []. change ((const_mx 2 : 'cV[R]_1) = (delta_mx 0 0 : 'M[R]_(1, 2)) *m const_mx 2).
  apply/matrixP => i j; rewrite !mxE (bigD1 0) //= big1 ?addr0 => [|k Hk]; first by rewrite !mxE !ord1 !eqxx mul1r.
  by rewrite !mxE (negbTE Hk) andbF mul0r.
by do 3 (split; first by split).
Qed.
End ExactExamples.
