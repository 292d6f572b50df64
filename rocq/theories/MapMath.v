(** * The filter finds the cheapest explanation: matrix theory and induction *)
From Verif Require Import Spec Matrix Filter Extended SpecFilter History SpecGen SpecExact SpecHistory SpecWorld SpecMap Zmod Psd KMath HistGen FilterExact HistExact WorldMath.
From mathcomp Require Import all_ssreflect all_algebra.
Set Implicit Arguments.
Unset Strict Implicit.
Unset Printing Implicit Defensive.
Import Order.TTheory GRing.Theory Num.Theory.
Local Open Scope ring_scope.

Section MapMath.
Variable R : rcfType.

Lemma tr11 (M : 'M[R]_1) : M^T = M.
Proof. by apply/matrixP => i j; rewrite mxE !ord1. Qed.
Lemma qf_inv n (P : 'M[R]_n) f : pd P -> qf (invmx P) (P *m f) = qf P f.
Proof. by move=> pP; have [sP _] := pP; rewrite /qf trmx_mul sP !mulmxA mulmxKV // pd_unit. Qed.

Lemma qf_scale n (M : 'M[R]_n) a v : qf M (a *: v) = a * a * qf M v.
Proof. by rewrite /qf [(a *: v)^T]linearZ /= -scalemxAr -!scalemxAl scalerA mxE. Qed.

(** Fenchel-Young for the quadratic form of X pulled along N *)
Lemma young n k (N : 'M[R]_(n, k)) (X : 'M[R]_k) g a : psd X ->
  (a^T *m (N *m X *m g)) 0 0 *+ 2 - qf (N *m X *m N^T) a <= qf X g.
Proof.
move=> [sX pX]; have := pX (g - N^T *m a); rewrite qf_add qf_congr.
have -> : qf X (- (N^T *m a)) = qf X (N^T *m a) by rewrite /qf [(- _)^T]linearN /= !mulNmx mulmxN opprK.
have -> : g^T *m X *m - (N^T *m a) = - (a^T *m (N *m X *m g)).
  by rewrite mulmxN -[X in _ = - X]tr11 !trmx_mul trmxK sX !mulmxA.
have -> : (- (N^T *m a))^T *m X *m g = - (a^T *m (N *m X *m g)) by rewrite [(- _)^T]linearN /= trmx_mul trmxK !mulNmx !mulmxA.
set q := _ *m (_ *m g); rewrite !(mxE oppmx_key) => H.
rewrite -subr_ge0; set y := q 0 0 in H *; rewrite mulr2n.
by have -> : qf X g - (y + y - qf X (N^T *m a)) = qf X g + qf X (N^T *m a) + - y + - y by zmod.
Qed.

(** infimal convolution *)
Lemma infconv n k1 k2 (N1 : 'M[R]_(n, k1)) (X1 : 'M[R]_k1) (N2 : 'M[R]_(n, k2)) (X2 : 'M[R]_k2) g1 g2 : psd X1 -> psd X2 ->
  let W := N1 *m X1 *m N1^T + N2 *m X2 *m N2^T in pd W ->
  qf (invmx W) (N1 *m X1 *m g1 + N2 *m X2 *m g2) <= qf X1 g1 + qf X2 g2.
Proof.
move=> p1 p2 W pW; set t := _ + _; set a := invmx W *m t.
have Et : t = W *m a by rewrite /a mulKVmx // pd_unit.
have E0 : qf (invmx W) t = qf W a by rewrite Et qf_inv.
have E1 : (a^T *m t) 0 0 = qf W a by rewrite Et /qf mulmxA.
have H1 := young N1 g1 a p1; have H2 := young N2 g2 a p2.
apply: le_trans (ler_add H1 H2); rewrite E0.
have -> : (a^T *m (N1 *m X1 *m g1)) 0 0 *+ 2 - qf (N1 *m X1 *m N1^T) a + ((a^T *m (N2 *m X2 *m g2)) 0 0 *+ 2 - qf (N2 *m X2 *m N2^T) a) =
   (a^T *m t) 0 0 *+ 2 - qf W a.
  rewrite /t mulmxDr [in RHS](mxE addmx_key) mulrnDl /W qfD; zmod.
by rewrite E1 mulr2n addrK.
Qed.
Lemma infconv_eq n k1 k2 (N1 : 'M[R]_(n, k1)) (X1 : 'M[R]_k1) (N2 : 'M[R]_(n, k2)) (X2 : 'M[R]_k2) t :
  let W := N1 *m X1 *m N1^T + N2 *m X2 *m N2^T in pd W ->
  exists a, N1 *m X1 *m (N1^T *m a) + N2 *m X2 *m (N2^T *m a) = t /\ qf (invmx W) t = qf X1 (N1^T *m a) + qf X2 (N2^T *m a).
Proof.
move=> W pW; exists (invmx W *m t); set a := invmx W *m t.
have Et : t = W *m a by rewrite /a mulKVmx // pd_unit.
split; first by rewrite [RHS]Et /W mulmxDl !mulmxA.
by rewrite [in LHS]Et qf_inv // /W qfD !qf_congr.
Qed.

Variable n : nat.
Implicit Types (w : tworld R n) (t : top R n).
(** what is known: cost [J] plus the distance from the estimate *)
Definition val w (J : R) (x : 'cV[R]_n) : R := J + qf (invmx (e_P (tw_s w))) (x - e_x (tw_s w)).

Definition sound w t (J J' : R) : Prop := forall a x K, val w J x <= K ->
  let: (x', K') := explain_step w t a (x, K) in val (tstep w t) J' x' <= K'.
Definition tight w t (J J' : R) : Prop := forall x', exists x a, explain_step w t a (x, val w J x) = (x', val (tstep w t) J' x').

Lemma conf m (v : 'cV[R]_m) : exists a : forall k, 'cV[R]_k, a m = v.
Proof. by exists (fun k => conform_mx 0 v); rewrite conform_mx_id. Qed.

(** a step x' = M x + c + G (Q a), cost s J + a' Q a, discounting by s > 0 *)
Lemma affine_sound k (M : 'M[R]_n) (G : 'M[R]_(n, k)) (Q : 'M[R]_k) (cc : 'cV[R]_n) s J K x b (P : 'M[R]_n) xe : 0 < s -> pd P -> psd Q ->
  let W := s^-1 *: (M *m P *m M^T) + G *m Q *m G^T in pd W ->
  J + qf (invmx P) (x - xe) <= K ->
  s * J + qf (invmx W) ((M *m x + cc + G *m (Q *m b)) - (M *m xe + cc)) <= s * K + qf Q b.
Proof.
move=> s0 pP pQ W pW H.
have EW : W = M *m (s^-1 *: P) *m M^T + G *m Q *m G^T by rewrite /W -scalemxAr -scalemxAl.
have pX : psd (s^-1 *: P) by apply: psdZ (pd_psd pP); rewrite invr_ge0 ltW.
pose f := invmx P *m (x - xe).
have Ef : x - xe = P *m f by rewrite /f mulKVmx // pd_unit.
have := @infconv _ _ _ M (s^-1 *: P) G Q (s *: f) b pX pQ; rewrite -EW => /(_ pW).
have -> : M *m (s^-1 *: P) *m (s *: f) + G *m Q *m b = M *m x + cc + G *m (Q *m b) - (M *m xe + cc).
  rewrite -!scalemxAr -scalemxAl scalerA mulfV ?gt_eqF // scale1r -[M *m P *m f]mulmxA -Ef; mxzmod.
have -> : qf (s^-1 *: P) (s *: f) = s * qf (invmx P) (x - xe).
  by rewrite qfZ Ef qf_inv // qf_scale !mulrA mulVf ?mul1r // gt_eqF.
move=> H2; apply: le_trans (_ : s * J + (s * qf (invmx P) (x - xe) + qf Q b) <= _); first by rewrite ler_add2l.
by rewrite addrA ler_add2r -mulrDr ler_pmul2l.
Qed.
Lemma affine_tight k (M : 'M[R]_n) (G : 'M[R]_(n, k)) (Q : 'M[R]_k) (cc : 'cV[R]_n) s J x' (P : 'M[R]_n) xe : 0 < s -> pd P ->
  let W := s^-1 *: (M *m P *m M^T) + G *m Q *m G^T in pd W ->
  exists x b, M *m x + cc + G *m (Q *m b) = x' /\
    s * (J + qf (invmx P) (x - xe)) + qf Q b = s * J + qf (invmx W) (x' - (M *m xe + cc)).
Proof.
move=> s0 pP W pW.
have EW : W = M *m (s^-1 *: P) *m M^T + G *m Q *m G^T by rewrite /W -scalemxAr -scalemxAl.
have := @infconv_eq _ _ _ M (s^-1 *: P) G Q (x' - (M *m xe + cc)); rewrite -EW => /(_ pW) [a [Et Eq]].
exists (xe + s^-1 *: P *m (M^T *m a)), (G^T *m a); split.
  have Ex : x' = (M *m (s^-1 *: P) *m (M^T *m a) + G *m Q *m (G^T *m a)) + (M *m xe + cc) by rewrite Et; zmod.
  by rewrite [RHS]Ex; mxzmod.
rewrite Eq mulrDr -addrA; congr (_ + (_ + _)).
have -> : xe + s^-1 *: P *m (M^T *m a) - xe = P *m (s^-1 *: (M^T *m a)) by rewrite -scalemxAl -scalemxAr; mxzmod.
by rewrite qf_inv // qfZ qf_scale !mulrA mulfV ?mul1r // gt_eqF.
Qed.

Lemma step_ls w t J : pd (e_P (tw_s w)) -> ls_op w t ->
  pd (e_P (tw_s (tstep w t))) /\ exists J', sound w t J J' /\ tight w t J J'.
Proof.
move=> pP.
have idle : tw_s (tstep w t) = tw_s w -> (forall a xK, explain_step w t a xK = xK) ->
    pd (e_P (tw_s (tstep w t))) /\ exists J', sound w t J J' /\ tight w t J J'.
  move=> E1 E2; rewrite E1; split=> //; exists J; split.
    by move=> a x K H; rewrite E2 /val E1.
  by move=> x'; exists x', (fun k => 0); rewrite E2 /val E1.
case: t idle => [|lam|F|lam F|i|j|j F|M|v|M|M|i M|i M|i M|j M|j M|j M] // idle.
(* predict *)
- move=> [pQ pW]; split=> //; exists J.
  have EW : e_P (tw_s (tstep w TPredict)) = 1^-1 *: (tw_A w *m e_P (tw_s w) *m (tw_A w)^T) + 1%:M *m tw_Q w *m (1%:M)^T.
    by rewrite /= invr1 scale1r mul1mx trmx1 mulmx1.
  split.
  + move=> a x K H; rewrite /val EW /=.
    have := @affine_sound n (tw_A w) 1%:M (tw_Q w) 0 1 J K x (a n) (e_P (tw_s w)) (e_x (tw_s w)) ltr01 pP pQ.
    by rewrite -EW => /(_ pW H); rewrite !mul1r !addr0 mul1mx.
  + move=> x'.
    have := @affine_tight n (tw_A w) 1%:M (tw_Q w) 0 1 J x' (e_P (tw_s w)) (e_x (tw_s w)) ltr01 pP; rewrite -EW => /(_ pW) [x [b [E1 E2]]].
    have [a Ea] := conf b; exists x, a; rewrite /val /= Ea.
    by move: E1 E2; rewrite !mul1r !addr0 mul1mx => -> ->.
(* tuned *)
- move=> [l0 [pQ pW]]; split=> //; exists (lam ^+ 2 * J).
  have s0 : 0 < lam ^+ 2 by rewrite exprn_even_gt0.
  have EW : e_P (tw_s (tstep w (TTuned lam))) = (lam ^+ 2)^-1 *: (tw_A w *m e_P (tw_s w) *m (tw_A w)^T) + 1%:M *m tw_Q w *m (1%:M)^T.
    by rewrite /= mul1mx trmx1 mulmx1.
  split.
  + move=> a x K H; rewrite /val EW /=.
    have := @affine_sound n (tw_A w) 1%:M (tw_Q w) 0 (lam ^+ 2) J K x (a n) (e_P (tw_s w)) (e_x (tw_s w)) s0 pP pQ.
    by rewrite -EW => /(_ pW H); rewrite !addr0 mul1mx.
  + move=> x'.
    have := @affine_tight n (tw_A w) 1%:M (tw_Q w) 0 (lam ^+ 2) J x' (e_P (tw_s w)) (e_x (tw_s w)) s0 pP; rewrite -EW => /(_ pW) [x [b [E1 E2]]].
    have [a Ea] := conf b; exists x, a; rewrite /val /= Ea.
    by move: E1 E2; rewrite !addr0 mul1mx => -> ->.
(* control *)
- rewrite [ls_op _ _]/=; case E: (nth_error _ i) => [[m B u Qc]|]; last by move=> _; apply: idle => [|a []]; rewrite /= E.
  move=> pQ; rewrite [tw_s (tstep _ _)]/= E /=.
  have EW : e_P (tw_s w) + B *m Qc *m B^T = 1^-1 *: (1%:M *m e_P (tw_s w) *m (1%:M)^T) + B *m Qc *m B^T.
    by rewrite invr1 scale1r mul1mx trmx1 mulmx1.
  have pW : pd (e_P (tw_s w) + B *m Qc *m B^T) by apply: pdDr => //; apply: psd_congr.
  split=> //; exists J; split.
  + move=> a x K H; rewrite /explain_step E /val /= E /=.
    have := @affine_sound m 1%:M B Qc (B *m u) 1 J K x (a m) (e_P (tw_s w)) (e_x (tw_s w)) ltr01 pP pQ.
    by rewrite -EW => /(_ pW H); rewrite !mul1r !mul1mx mulmxDr !addrA.
  + move=> x'; rewrite /explain_step E /val /= E /=.
    have := @affine_tight m 1%:M B Qc (B *m u) 1 J x' (e_P (tw_s w)) (e_x (tw_s w)) ltr01 pP; rewrite -EW => /(_ pW) [x [b [E1 E2]]].
    have [a Ea] := conf b; exists x, a; rewrite Ea.
    by move: E1 E2; rewrite !mul1r !mul1mx mulmxDr !addrA => -> ->.
(* correct *)
- rewrite [ls_op _ _]/=; case E: (nth_error _ j) => [[m H z Rm]|]; last by move=> _; apply: idle => [|a []]; rewrite /= E.
  move=> [_ pR]; rewrite [tw_s (tstep _ _)]/= E /=; split; first by rewrite -/(Ppost _ _ _); apply: Ppost_pd.
  exists (J + wls H Rm z (tw_s w) (e_x (t_correct H Rm z (tw_s w)))).
  have EV x : val (tstep w (TCorrect j)) (J + wls H Rm z (tw_s w) (e_x (t_correct H Rm z (tw_s w)))) x = val w J x + qf (invmx Rm) (z - H *m x).
    rewrite /val [tstep _ _]/= E /do_correct -addrA -[tw_s (tw_est _ _)]/(t_correct H Rm z (tw_s w)) -(wls_min H z x pP pR) /wls addrA //.
  split.
  + by move=> a x K HK; rewrite /explain_step E EV ler_add2r.
  + by move=> x'; exists x', (fun k => 0); rewrite /explain_step E EV.
- by move=> _; apply: idle => // a [].
- by move=> _; apply: idle => // a [].
- by move=> _; apply: idle => // a [].
- by move=> _; apply: idle => // a [].
- by move=> _; apply: idle => // a [].
- by move=> _; apply: idle => // a [].
- by move=> _; apply: idle => // a [].
- by move=> _; apply: idle => // a [].
Qed.

Lemma run_ls w ts J : pd (e_P (tw_s w)) -> ls_ops w ts ->
  pd (e_P (tw_s (trun w ts))) /\ exists J',
   (forall a x K, val w J x <= K -> let: (x', K') := explain_from w ts a (x, K) in val (trun w ts) J' x' <= K') /\
   (forall x', exists x a, explain_from w ts a (x, val w J x) = (x', val (trun w ts) J' x')).
Proof.
elim: ts w J => [|t ts IH] w J pP.
  by move=> _; split=> //; exists J; split=> [a x K|x'] //; exists x', (fun _ _ => 0).
move=> [Ho Hs]; have [pP1 [J1 [S1 T1]]] := step_ls J pP Ho.
have [pP2 [J2 [S2 T2]]] := IH _ J1 pP1 Hs; split=> //; exists J2; split.
- move=> a x K H; have := S1 (a 0%N) x K H; rewrite -[explain_from w _ _ _]/(explain_from (tstep w t) ts (fun k => a k.+1) (explain_step w t (a 0%N) (x, K))).
  by case: (explain_step w t (a 0%N) (x, K)) => [x1 K1] H1; exact: (S2 (fun k => a k.+1) x1 K1 H1).
- move=> x'; have [x1 [a E2]] := T2 x'; have [x [a0 E1]] := T1 x1.
  exists x, (fun k => if k is k'.+1 then a k' else a0).
  by rewrite -[LHS]/(explain_from (tstep w t) ts a (explain_step w t a0 (x, val w J x))) E1.
Qed.
Lemma ls_ok w ts : pd (e_P (tw_s w)) -> ls_ops w ts -> ops_ok w ts.
Proof.
elim: ts w => [|t ts IH] w pP //= [Ho Hs]; have [pP1 _] := step_ls 0 pP Ho; split; last exact: IH.
case: t Ho {Hs IH pP1} => //= [lam [] //|j]; case: (nth_error _ _) => [[m H z Rm]|] // [Hm pR]; split=> //.
by apply: S_pd => //; apply: pd_psd.
Qed.

(** ** programs *)
Section Prog.
Variable c : cfg.
Local Notation N := (@exact_num R).
Local Notation wx w := (mx n 1 (kf_x (w_kf w))).
Local Notation wP w := (mx n n (kf_P (w_kf w))).
Theorem run_cheapest (w : world R) os (ts : seq (top R n)) : world_ok c n w -> List.Forall2 (@denotes R c n w) os ts ->
  pd (wP w) -> ls_ops (world_abs n w) ts ->
  exists (w' : world R) (J : R), run c N n w os = Ok w' /\ pd (wP w') /\
    (forall x a, let: (x', cost) := explain (world_abs n w) ts x a in J + qf (invmx (wP w')) (x' - wx w') <= cost) /\
    (forall x', exists x a, explain (world_abs n w) ts x a = (x', J + qf (invmx (wP w')) (x' - wx w'))).
Proof.
move=> W D pP Ho; have [w' [E [_ [_ [_ A]]]]] := run_refines W D (@ls_ok (world_abs n w) ts pP Ho).
have [pP' [J [S T]]] := @run_ls (world_abs n w) ts 0 pP Ho; rewrite /val -A in pP' S T.
exists w', J; split=> //; split=> //; split.
- by move=> x a; have := S a x (qf (invmx (e_P (tw_s (world_abs n w)))) (x - e_x (tw_s (world_abs n w)))); rewrite add0r lexx => /(_ isT).
- by move=> x'; have [x [a Ex]] := T x'; exists x, a; rewrite /explain -Ex add0r.
Qed.
(** so the estimate is where the cheapest explanation ends, and every explanation ending elsewhere costs more *)
Theorem run_map (w : world R) os (ts : seq (top R n)) : world_ok c n w -> List.Forall2 (@denotes R c n w) os ts ->
  pd (wP w) -> ls_ops (world_abs n w) ts ->
  exists (w' : world R) x a, run c N n w os = Ok w' /\
    let: (xb, best) := explain (world_abs n w) ts x a in wx w' = xb /\
    forall x2 a2, let: (x', cost) := explain (world_abs n w) ts x2 a2 in best <= cost /\ (x' <> xb -> best < cost).
Proof.
move=> W D pP Ho; have [w' [J [E [pP' [S T]]]]] := run_cheapest W D pP Ho.
have [x [a Ex]] := T (wx w'); exists w', x, a; split=> //; rewrite Ex subrr qf_0 addr0; split=> // x2 a2.
have := S x2 a2; case: (explain _ _ _ _) => x' cost H.
have [_ Hq] := pd_psd (pd_inv pP'); have [_ Hq'] := pd_inv pP'.
split; first by apply: le_trans H; rewrite ler_addl.
by move=> /eqP Hne; apply: lt_le_trans H; rewrite ltr_addl Hq' // subr_eq0.
Qed.
End Prog.
End MapMath.
