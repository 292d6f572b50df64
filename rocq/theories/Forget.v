(** * The influence of the initial guess *)
From Verif Require Import Spec Matrix Filter Extended SpecFilter History SpecGen SpecExact SpecHistory SpecWorld SpecMap Zmod Psd KMath HistGen FilterExact HistExact WorldMath MapMath.
From Verif Require Import ExampleData Represent ExactExamples MapExamples.
From mathcomp Require Import all_ssreflect all_algebra.
Set Implicit Arguments.
Unset Strict Implicit.
Unset Printing Implicit Defensive.
Import Order.TTheory GRing.Theory Num.Theory.
Local Open Scope ring_scope.

Section Forget.
Variable R : rcfType.
Variables (c : cfg) (n : nat).
Local Notation N := (@exact_num R).
Local Notation abs := (world_abs n).
Local Notation den w os ts := (List.Forall2 (@denotes R c n w) os ts).
Local Notation wx w := (mx n 1 (kf_x (w_kf w))).
Local Notation wP w := (mx n n (kf_P (w_kf w))).

Definition tw_x (w : tworld R n) x : tworld R n := tw_est w (Est x (e_P (tw_s w))).
Definition dist2 (w1 w2 : tworld R n) : R := qf (invmx (e_P (tw_s w1))) (e_x (tw_s w1) - e_x (tw_s w2)).

Lemma affine_shrinks (M Q P : 'M[R]_n) s x1 x2 k (cc : 'cV[R]_n) (G : 'M[R]_(n, k)) (Qc : 'M[R]_k) : 0 < s -> pd P -> psd Qc ->
  let W := s^-1 *: (M *m P *m M^T) + G *m Qc *m G^T in pd W ->
  qf (invmx W) ((M *m x1 + cc) - (M *m x2 + cc)) <= s * qf (invmx P) (x1 - x2).
Proof.
move=> s0 pP pQ W pW; have := @affine_sound R n k M G Qc cc s 0 (qf (invmx P) (x1 - x2)) x1 0 P x2 s0 pP pQ pW.
by rewrite add0r lexx mulr0 add0r !mulmx0 addr0 qf_0 addr0 => /(_ isT).
Qed.

Lemma step_forget w t x2 : pd (e_P (tw_s w)) -> ls_op w t ->
  exists x2', tstep (tw_x w x2) t = tw_x (tstep w t) x2' /\
    dist2 (tstep w t) (tstep (tw_x w x2) t) <= (if t is TTuned lam then lam ^+ 2 else 1) * dist2 w (tw_x w x2).
Proof.
move=> pP; rewrite /dist2; case: t => [|lam|F|lam F|i|j|j F|M|v|M|M|i M|i M|i M|j M|j M|j M] //.
- move=> [pQ pW]; exists (tw_A w *m x2); split=> //=.
  have := @affine_shrinks (tw_A w) (tw_Q w) (e_P (tw_s w)) 1 (e_x (tw_s w)) x2 n 0 1%:M (tw_Q w) ltr01 pP pQ.
  by rewrite invr1 scale1r mul1mx trmx1 mulmx1 !addr0; apply.
- move=> [l0 [pQ pW]]; exists (tw_A w *m x2); split=> //=.
  have s0 : 0 < lam ^+ 2 by rewrite exprn_even_gt0.
  have := @affine_shrinks (tw_A w) (tw_Q w) (e_P (tw_s w)) (lam ^+ 2) (e_x (tw_s w)) x2 n 0 1%:M (tw_Q w) s0 pP pQ.
  by rewrite mul1mx trmx1 mulmx1 !addr0; apply.
- rewrite [ls_op _ _]/=; case E: (nth_error _ i) => [[m B u Qc]|]; last by move=> _; exists x2; rewrite /= E mul1r.
  move=> pQ; exists (x2 + B *m u); rewrite /= E; split=> //=.
  have := @affine_shrinks 1%:M (tw_Q w) (e_P (tw_s w)) 1 (e_x (tw_s w)) x2 m (B *m u) B Qc ltr01 pP pQ.
  rewrite invr1 scale1r !mul1mx trmx1 mulmx1; apply.
  by apply: pdDr => //; apply: psd_congr.
- rewrite [ls_op _ _]/=; case E: (nth_error _ j) => [[m H z Rm]|]; last by move=> _; exists x2; rewrite /= E mul1r.
  move=> [_ pR]; exists (e_x (t_correct H Rm z (Est x2 (e_P (tw_s w))))); rewrite /= E; split=> //=.
  rewrite mul1r; set P := e_P (tw_s w) in pP *; set x1 := e_x (tw_s w).
  have pS := S_pd H (pd_psd pP) pR; have uP := pd_unit pP; have [sP _] := pP.
  rewrite -/(Ppost H Rm P); have pP' := Ppost_pd H pP pR.
  have -> : x1 + t_K H Rm P *m (z - H *m x1) - (x2 + t_K H Rm P *m (z - H *m x2)) = Ppost H Rm P *m (invmx P *m (x1 - x2)).
    by rewrite /Ppost mulmxBl !mulmxA mulmxV // mul1mx -[_ *m P *m invmx P]mulmxA mulmxV // mulmx1; mxzmod.
  rewrite qf_inv //; have [_ HL] := correct_decreases sP pS; have := HL (invmx P *m (x1 - x2)); rewrite qfB subr_ge0 => HH.
  by apply: le_trans HH _; rewrite -(qf_inv _ pP) mulmxA mulmxV // mul1mx.
- by move=> _; exists x2; rewrite /= mul1r.
- by move=> _; exists x2; rewrite /= mul1r.
- by move=> _; exists x2; rewrite /= mul1r.
- by move=> _; exists x2; rewrite /= mul1r.
- by move=> _; exists x2; rewrite /= mul1r.
- by move=> _; exists x2; rewrite /= mul1r.
- by move=> _; exists x2; rewrite /= mul1r.
- by move=> _; exists x2; rewrite /= mul1r.
Qed.

Lemma run_forget' w ts x2 : pd (e_P (tw_s w)) -> ls_ops w ts ->
  exists x2', trun (tw_x w x2) ts = tw_x (trun w ts) x2' /\ dist2 (trun w ts) (trun (tw_x w x2) ts) <= discount ts * dist2 w (tw_x w x2).
Proof.
elim: ts w x2 => [|t ts IH] w x2 pP; first by exists x2; rewrite /discount big_nil mul1r.
move=> [Ho Hs]; have [pP1 _] := step_ls 0 pP Ho; have [x' [E1 L1]] := step_forget x2 pP Ho.
have [x'' [E2 L2]] := IH _ x' pP1 Hs; exists x''; rewrite /= E1; split=> //.
apply: le_trans L2 _; rewrite /discount big_cons -/(discount ts) [X in _ <= X * _]mulrC -mulrA -E1.
apply: ler_wpmul2l L1; rewrite /discount; elim: ts {IH Hs E2} => [|t' ts IH]; first by rewrite big_nil; exact: ler01.
by rewrite big_cons mulr_ge0 //; case: t' => *; rewrite ?sqr_ge0 ?ler01.
Qed.

Lemma ls_ok_x w ts x2 : pd (e_P (tw_s w)) -> ls_ops w ts -> ls_ops (tw_x w x2) ts.
Proof.
elim: ts w x2 => [|t ts IH] w x2 pP //= [Ho Hs]; have [pP1 _] := step_ls 0 pP Ho; have [x' [-> _]] := step_forget x2 pP Ho.
by split; [case: t Ho {Hs IH pP1}|apply: IH].
Qed.

Theorem run_forget (w1 w2 : world R) os1 os2 ts : world_ok c n w1 -> world_ok c n w2 -> den w1 os1 ts -> den w2 os2 ts ->
  abs w2 = tw_est (abs w1) (Est (wx w2) (wP w1)) -> pd (wP w1) -> ls_ops (abs w1) ts ->
  exists w1' w2', run c N n w1 os1 = Ok w1' /\ run c N n w2 os2 = Ok w2' /\ wP w1' = wP w2' /\ pd (wP w1') /\
    qf (invmx (wP w1')) (wx w1' - wx w2') <= discount ts * qf (invmx (wP w1)) (wx w1 - wx w2).
Proof.
move=> W1 W2 D1 D2 E pP Ho.
have E' : abs w2 = tw_x (abs w1) (wx w2) by rewrite E.
have pP1 : pd (e_P (tw_s (abs w1))) by [].
have [w1' [R1 [_ [_ [_ A1]]]]] := run_refines W1 D1 (ls_ok pP1 Ho).
have pP2 : pd (e_P (tw_s (abs w2))) by rewrite E'.
have O2 : ls_ops (abs w2) ts by rewrite E'; apply: ls_ok_x.
have [w2' [R2 [_ [_ [_ A2]]]]] := run_refines W2 D2 (ls_ok pP2 O2).
have [x' [F1 F2]] := run_forget' (wx w2) pP1 Ho.
exists w1', w2'; split=> //; split=> //.
have [pPe _] := run_ls 0 pP1 Ho.
rewrite -E' -A1 -A2 in F1 F2; split; last split.
- by rewrite -[wP w2']/(e_P (tw_s (abs w2'))) F1.
- by move: pPe; rewrite -A1.
- by move: F2; rewrite /dist2 E' /=.
Qed.
End Forget.

Section ForgetExample.
Variable R : rcfType.
Lemma forget_example : exists (w1 w2 : world R) os1 os2, world_ok cfg64 2 w1 /\ world_ok cfg64 2 w2 /\
  List.Forall2 (@denotes R cfg64 2 w1) os1 (x_ls R) /\ List.Forall2 (@denotes R cfg64 2 w2) os2 (x_ls R) /\
  world_abs 2 w2 = tw_est (world_abs 2 w1) (Est (mx 2 1 (kf_x (w_kf w2))) (mx 2 2 (kf_P (w_kf w1)))) /\
  pd (mx 2 2 (kf_P (w_kf w1))) /\ ls_ops (world_abs 2 w1) (x_ls R) /\
  mx 2 1 (kf_x (w_kf w1)) <> mx 2 1 (kf_x (w_kf w2)) /\ discount (x_ls R) = 4%:R.
Proof.
pose t2 : tworld R 2 := x_gen (const_mx 100%:R) (x_P R 2) 1%:M (const_mx 3%:R) (x_P R 1) (const_mx 5%:R) (x_P R 1) (const_mx 7%:R) (x_P R 2).
have [w1 [os1 [W1 [A1 D1]]]] := rep_program (x_ls R) (x_tw_fits R).
have [w2 [os2 [W2 [A2 D2]]]] := @rep_program R cfg64 2 t2 (x_ls R) (x_gen_fits _ _ _ _ _ _ _ _ _).
exists w1, w2, os1, os2; do 4 split=> //.
rewrite -[mx 2 2 _]/(e_P (tw_s (world_abs 2 w1))) -[mx 2 1 (kf_x (w_kf w2))]/(e_x (tw_s (world_abs 2 w2))) -[mx 2 1 _]/(e_x (tw_s (world_abs 2 w1))) A1 A2.
do 2 split=> //; first exact: x_P_pd.
split; first exact: x_ls_ok.
split.
  move=> /= /matrixP /(_ 0 0); rewrite !mxE => /eqP; rewrite eqr_nat //.
by rewrite /discount /x_ls !big_cons big_nil !mul1r !mulr1 -natrX.
Qed.
End ForgetExample.
