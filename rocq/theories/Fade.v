(** * With process noise the filter forgets its initial guess and its initial covariance exponentially *)
From Verif Require Import Spec Matrix Filter Extended SpecFilter History SpecGen SpecExact SpecHistory SpecWorld SpecMap SpecFade Zmod Psd KMath HistGen FilterExact HistExact WorldMath MapMath Forget.
From Verif Require Import ExampleData Represent ExactExamples MapExamples.
From mathcomp Require Import all_ssreflect all_algebra.
Set Implicit Arguments.
Unset Strict Implicit.
Unset Printing Implicit Defensive.
Import Order.TTheory GRing.Theory Num.Theory.
Local Open Scope ring_scope.

Section Fade.
Variable R : rcfType.
Variables (c : cfg) (n : nat).
Local Notation N := (@exact_num R).
Local Notation abs := (world_abs n).
Local Notation den w os ts := (List.Forall2 (@denotes R c n w) os ts).
Local Notation wx w := (mx n 1 (kf_x (w_kf w))).
Local Notation wP w := (mx n n (kf_P (w_kf w))).

Variable th : R.
Hypothesis th0 : 0 <= th.
Let o1 : 0 < 1 + th. Proof. exact: ltr_paddr th0 ltr01. Qed.
Let u1 : 1 + th != 0. Proof. exact: lt0r_neq0. Qed.

(** ** state *)
Lemma affine_fades (M P Q : 'M[R]_n) s x1 x2 : 0 < s -> pd P -> let X := M *m P *m M^T in
  lemx (th *: (s^-1 *: X)) Q -> pd (s^-1 *: X + Q) ->
  qf (invmx (s^-1 *: X + Q)) (M *m x1 - M *m x2) <= s / (1 + th) * qf (invmx P) (x1 - x2).
Proof.
move=> s0 pP X LQ pW; have s1 : 0 < s / (1 + th) by rewrite divr_gt0.
have := @affine_shrinks R n M Q P (s / (1 + th)) x1 x2 n 0 1%:M (Q - th *: (s^-1 *: X)) s1 pP LQ.
rewrite mul1mx trmx1 mulmx1 !addr0 -/X invf_div.
have -> : ((1 + th) / s) *: X + (Q - th *: (s^-1 *: X)) = s^-1 *: X + Q.
  by rewrite mulrDl mul1r scalerDl -scalerA; mxzmod.
exact.
Qed.

Definition fade1 (t : top R n) : R := (if t is TTuned lam then lam ^+ 2 else 1) * (if is_predict t then (1 + th)^-1 else 1).
Lemma step_fade w t x2 : pd (e_P (tw_s w)) -> ls_op w t -> noisy_op th w t ->
  dist2 (tstep w t) (tstep (tw_x w x2) t) <= fade1 t * dist2 w (tw_x w x2).
Proof.
move=> pP Ho; case E: (is_predict t); last first.
  by move=> _; rewrite /fade1 E mulr1; have [x' [_ H]] := step_forget x2 pP Ho.
rewrite /fade1 E /dist2; case: t E Ho => [|lam|F|lam F|i|j|j F|M|v|M|M|i M|i M|i M|j M|j M|j M] // _.
- move=> [pQ pW] LQ; have := @affine_fades (tw_A w) (e_P (tw_s w)) (tw_Q w) 1 (e_x (tw_s w)) x2 ltr01 pP.
  by rewrite /= invr1 !scale1r => /(_ LQ pW).
- move=> [l0 [pQ pW]] LQ; have s0 : 0 < lam ^+ 2 by rewrite exprn_even_gt0.
  exact: (@affine_fades (tw_A w) (e_P (tw_s w)) (tw_Q w) _ (e_x (tw_s w)) x2 s0 pP LQ pW).
Qed.

Lemma fade1_ge0 t : 0 <= fade1 t.
Proof. by rewrite /fade1 mulr_ge0 //; [case: t => *; rewrite ?sqr_ge0 ?ler01|case: is_predict; rewrite ?ler01 ?invr_ge0 ?ltW]. Qed.

Lemma fade_prod ts : \prod_(t <- ts) fade1 t = discount ts / (1 + th) ^+ predictions ts.
Proof.
rewrite /discount /predictions; elim: ts => [|t ts IH]; first by rewrite !big_nil expr0 invr1 mulr1.
rewrite !big_cons IH /fade1 /=; case: (is_predict t); rewrite ?add1n ?add0n ?mulr1; last by rewrite !mulrA.
by rewrite exprS invfM -!mulrA; congr (_ * _); rewrite mulrCA.
Qed.

Lemma run_fade' (w : tworld R n) ts x2 : pd (e_P (tw_s w)) -> ls_ops w ts -> noisy th w ts ->
  dist2 (trun w ts) (trun (tw_x w x2) ts) <= discount ts / (1 + th) ^+ predictions ts * dist2 w (tw_x w x2).
Proof.
rewrite -fade_prod; elim: ts w x2 => [|t ts IH] w x2 pP; first by rewrite big_nil mul1r.
move=> [Ho Hs] [Hn Hns]; have [pP1 _] := step_ls 0 pP Ho; have [x' [E1 _]] := step_forget x2 pP Ho.
have L1 := step_fade x2 pP Ho Hn; have L2 := IH _ x' pP1 Hs Hns.
rewrite [trun _ _]/= [trun (tw_x w x2) _]/= E1.
apply: le_trans L2 _; rewrite big_cons [X in _ <= X * _]mulrC -mulrA -E1.
apply: ler_wpmul2l L1; elim: ts {IH Hs Hns} => [|t' ts IH]; first by rewrite big_nil; exact: ler01.
by rewrite big_cons mulr_ge0 // fade1_ge0.
Qed.

(** ** covariance *)
Lemma symZ k a (M : 'M[R]_k) : sym M -> sym (a *: M).
Proof. by move=> s; rewrite /sym linearZ /= s. Qed.

(** the factor that two covariances differ by, after a prediction *)
Lemma blend (X1 X2 Q : 'M[R]_n) al : 1 <= al -> lemx X1 (al *: X2) -> lemx (th *: X2) Q ->
  lemx (X1 + Q) ((1 + (al - 1) / (1 + th)) *: (X2 + Q)).
Proof.
move=> a1 LX LQ; apply: lemx_trans (lemxD LX (lemx_refl Q)) _.
set b := (al - 1) / (1 + th).
have b0 : 0 <= b by rewrite divr_ge0 ?subr_ge0 // ltW.
have Eb : al - 1 = b + b * th by transitivity (b * (1 + th)); [rewrite /b divfK|rewrite mulrDr mulr1].
rewrite /lemx.
have -> : (1 + b) *: (X2 + Q) - (al *: X2 + Q) = b *: (Q - th *: X2).
  have -> : al = 1 + b + b * th by rewrite -addrA -Eb addrC subrK.
  rewrite !scalerDl !scale1r scalerBr scalerA scalerDr; mxzmod.
exact: psdZ.
Qed.

Definition alpha1 (t : top R n) (al : R) : R := if is_predict t then 1 + (al - 1) / (1 + th) else al.
Lemma alpha1_ge1 t al : 1 <= al -> 1 <= alpha1 t al.
Proof. by rewrite /alpha1 => a1; case: is_predict => //; rewrite ler_addl divr_ge0 ?subr_ge0 // ltW. Qed.

(** w with another estimate *)
Lemma step_est (w : tworld R n) t s : pd (e_P (tw_s w)) -> pd (e_P s) -> ls_op w t -> ls_op (tw_est w s) t ->
  exists s', tstep (tw_est w s) t = tw_est (tstep w t) s'.
Proof.
move=> pP pP2; case: t => [|lam|F|lam F|i|j|j F|M|v|M|M|i M|i M|i M|j M|j M|j M] //= Ho Ho2; try by eexists.
Qed.

Lemma step_alpha (w : tworld R n) t s al : 1 <= al -> pd (e_P (tw_s w)) -> pd (e_P s) -> ls_op w t -> ls_op (tw_est w s) t -> noisy_op th w t ->
  lemx (e_P s) (al *: e_P (tw_s w)) ->
  lemx (e_P (tw_s (tstep (tw_est w s) t))) (alpha1 t al *: e_P (tw_s (tstep w t))).
Proof.
move=> a1 pP pP2; rewrite /alpha1; have a0 : 0 < al by apply: lt_le_trans a1.
case: t => [|lam|F|lam F|i|j|j F|M|v|M|M|i M|i M|i M|j M|j M|j M] // Ho Ho2 Hn L //.
- apply: blend => //=; rewrite scalemxAl scalemxAr; exact: lemx_congr.
- have [l0 _] := Ho; have s0 : 0 <= (lam ^+ 2)^-1 by rewrite invr_ge0 sqr_ge0.
  apply: blend => //=; rewrite scalerA mulrC -scalerA; apply: lemxZ => //.
  rewrite scalemxAl scalemxAr; exact: lemx_congr.
- move: Ho Ho2 => /=; case E: (nth_error _ i) => [[m B u Qc]|] pQ _; last by [].
  rewrite /= scalerDr; apply: lemxD => //; rewrite scalemxAl scalemxAr; apply: lemx_congr.
  rewrite /lemx -{2}[Qc]scale1r -scalerBl; apply: psdZ => //; by rewrite subr_ge0.
- move: Ho Ho2 => /=; case E: (nth_error _ j) => [[m H z Rm]|]; last by [].
  move=> [m0 pR] _; rewrite [do_correct _ _]/= [do_correct _ (tw_s w)]/= !t_correct_P.
  have pS := S_pd H (pd_psd pP) pR; have pS2 := S_pd H (pd_psd pP2) pR.
  have := @correct_scale R n m al H Rm z (tw_s w) (lt0r_neq0 a0) (pd_unit pS) => /(congr1 (@e_P R n)); rewrite !t_correct_P /= => <-.
  have paP : psd (al *: e_P (tw_s w)) by apply: psdZ; [exact: ltW|exact: pd_psd].
  have paR : pd (al *: Rm) by apply: pdZ.
  apply: Ppost_mono => //; [by case: pP2|by case: paP|exact: S_pd|].
  rewrite /lemx -{2}[Rm]scale1r -scalerBl; apply: psdZ; [by rewrite subr_ge0|exact: pd_psd].
Qed.

Lemma run_alpha' (w : tworld R n) ts s al : 1 <= al -> pd (e_P (tw_s w)) -> pd (e_P s) -> ls_ops w ts -> ls_ops (tw_est w s) ts -> noisy th w ts ->
  lemx (e_P s) (al *: e_P (tw_s w)) ->
  lemx (e_P (tw_s (trun (tw_est w s) ts))) ((1 + (al - 1) / (1 + th) ^+ predictions ts) *: e_P (tw_s (trun w ts))).
Proof.
rewrite /predictions; elim: ts w s al => [|t ts IH] w s al a1 pP pP2.
  by move=> _ _ _; rewrite /= expr0 divr1 addrC subrK.
move=> [Ho Hs] [Ho2 Hs2] [Hn Hns] L.
have [pP' _] := step_ls 0 pP Ho; have [pP2' _] := @step_ls R n (tw_est w s) t 0 pP2 Ho2.
have L1 := step_alpha a1 pP pP2 Ho Ho2 Hn L; have [s' E] := step_est pP pP2 Ho Ho2.
rewrite /= in Hs2 *; rewrite E in Hs2 L1 pP2' *.
have := IH _ s' _ (alpha1_ge1 t a1) pP' pP2' Hs Hs2 Hns L1.
rewrite /alpha1; case: (is_predict t); rewrite ?add0n // add1n.
by rewrite [1 + (al - 1) / (1 + th)]addrC addrK exprS invfM mulrA.
Qed.

(** ** runs of the code *)
Theorem run_fades_state (w1 w2 : world R) os1 os2 ts : world_ok c n w1 -> world_ok c n w2 -> den w1 os1 ts -> den w2 os2 ts ->
  abs w2 = tw_est (abs w1) (Est (wx w2) (wP w1)) -> pd (wP w1) -> ls_ops (abs w1) ts -> noisy th (abs w1) ts ->
  exists w1' w2', run c N n w1 os1 = Ok w1' /\ run c N n w2 os2 = Ok w2' /\ wP w1' = wP w2' /\ pd (wP w1') /\
    qf (invmx (wP w1')) (wx w1' - wx w2') <= discount ts / (1 + th) ^+ predictions ts * qf (invmx (wP w1)) (wx w1 - wx w2).
Proof.
move=> W1 W2 D1 D2 E pP Ho Hn.
have E' : abs w2 = tw_x (abs w1) (wx w2) by rewrite E.
have pP1 : pd (e_P (tw_s (abs w1))) by [].
have [w1' [R1 [_ [_ [_ A1]]]]] := run_refines W1 D1 (ls_ok pP1 Ho).
have pP2 : pd (e_P (tw_s (abs w2))) by rewrite E'.
have O2 : ls_ops (abs w2) ts by rewrite E'; apply: ls_ok_x.
have [w2' [R2 [_ [_ [_ A2]]]]] := run_refines W2 D2 (ls_ok pP2 O2).
have [x' [F1 _]] := run_forget' (wx w2) pP1 Ho; have F2 := run_fade' (wx w2) pP1 Ho Hn.
exists w1', w2'; split=> //; split=> //.
have [pPe _] := run_ls 0 pP1 Ho.
rewrite -E' -A1 -A2 in F1 F2; split; last split.
- by rewrite -[wP w2']/(e_P (tw_s (abs w2'))) F1.
- by move: pPe; rewrite -A1.
- by move: F2; rewrite /dist2 E' /=.
Qed.

Theorem run_fades_cov (w1 w2 : world R) os1 os2 ts al : world_ok c n w1 -> world_ok c n w2 -> den w1 os1 ts -> den w2 os2 ts ->
  abs w2 = tw_est (abs w1) (Est (wx w2) (wP w2)) -> pd (wP w1) -> pd (wP w2) ->
  ls_ops (abs w1) ts -> ls_ops (abs w2) ts -> noisy th (abs w1) ts ->
  1 <= al -> lemx (wP w2) (al *: wP w1) ->
  exists w1' w2', run c N n w1 os1 = Ok w1' /\ run c N n w2 os2 = Ok w2' /\
    lemx (wP w2') ((1 + (al - 1) / (1 + th) ^+ predictions ts) *: wP w1').
Proof.
move=> W1 W2 D1 D2 E pP pP2 Ho Ho2 Hn a1 L.
have [w1' [R1 [_ [_ [_ A1]]]]] := run_refines W1 D1 (@ls_ok R n (abs w1) ts pP Ho).
have [w2' [R2 [_ [_ [_ A2]]]]] := run_refines W2 D2 (@ls_ok R n (abs w2) ts pP2 Ho2).
exists w1', w2'; split=> //; split=> //.
rewrite E in Ho2.
have := @run_alpha' (abs w1) ts (Est (wx w2) (wP w2)) al a1 pP pP2 Ho Ho2 Hn L.
by rewrite -E -A1 -A2.
Qed.

(** both ways; in particular the variances agree relatively, ever better *)
Theorem run_fades_var (w1 w2 : world R) os1 os2 ts al : world_ok c n w1 -> world_ok c n w2 -> den w1 os1 ts -> den w2 os2 ts ->
  abs w2 = tw_est (abs w1) (Est (wx w2) (wP w2)) -> pd (wP w1) -> pd (wP w2) ->
  ls_ops (abs w1) ts -> ls_ops (abs w2) ts -> noisy th (abs w1) ts -> noisy th (abs w2) ts ->
  1 <= al -> lemx (wP w2) (al *: wP w1) -> lemx (wP w1) (al *: wP w2) ->
  exists w1' w2', run c N n w1 os1 = Ok w1' /\ run c N n w2 os2 = Ok w2' /\
    forall i, `|wP w2' i i - wP w1' i i| <= (al - 1) / (1 + th) ^+ predictions ts * Num.max (wP w1' i i) (wP w2' i i).
Proof.
move=> W1 W2 D1 D2 E pP pP2 Ho Ho2 Hn Hn2 a1 L L2.
have [w1' [w2' [R1 [R2 H1]]]] := run_fades_cov W1 W2 D1 D2 E pP pP2 Ho Ho2 Hn a1 L.
have E2 : abs w1 = tw_est (abs w2) (Est (wx w1) (wP w1)) by rewrite E.
have [w2'' [w1'' [R2' [R1' H2]]]] := run_fades_cov W2 W1 D2 D1 E2 pP2 pP Ho2 Ho Hn2 a1 L2.
move: R1' R2'; rewrite R1 R2 => -[?] [?]; subst w1'' w2''; exists w1', w2'; split=> //; split=> // i.
set b := (al - 1) / _ in H1 H2 *; have b0 : 0 <= b by rewrite divr_ge0 ?subr_ge0 // exprn_ge0 // ltW.
have := lemx_diag i H1; have := lemx_diag i H2.
have zE a (M : 'M[R]_n) : (a *: M) i i = a * M i i by rewrite mxE.
rewrite !zE !mulrDl !mul1r => h2 h1; rewrite ler_norml; apply/andP; split.
- rewrite ler_oppl opprB ler_subl_addl; apply: le_trans h2 _; rewrite ler_add2l; apply: ler_wpmul2l => //.
  by rewrite le_maxr lexx orbT.
- rewrite ler_subl_addl; apply: le_trans h1 _; rewrite ler_add2l; apply: ler_wpmul2l => //.
  by rewrite le_maxr lexx.
Qed.
End Fade.
