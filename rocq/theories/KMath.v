(** * Mathematics of the textbook filter (no reference to the model) *)
From Verif Require Import SpecExact Zmod Psd.
From mathcomp Require Import all_ssreflect all_algebra.
Set Implicit Arguments.
Unset Strict Implicit.
Unset Printing Implicit Defensive.
Import Order.TTheory GRing.Theory Num.Theory.
Local Open Scope ring_scope.

Section Correction.
Variable R : rcfType.
Variables (n m : nat).
Implicit Types (P : 'M[R]_n) (Rm : 'M[R]_m) (H : 'M[R]_(m, n)) (G : 'M[R]_(n, m)) (s : est R n).

(** posterior covariance *)
Definition Ppost H Rm P : 'M[R]_n := P - t_K H Rm P *m (H *m P).

Lemma t_correct_P H Rm z s : e_P (t_correct H Rm z s) = Ppost H Rm (e_P s).
Proof. by []. Qed.

Lemma S_sym H Rm P : sym P -> sym Rm -> sym (t_S H Rm P).
Proof. by move=> sP sR; rewrite /sym /t_S linearD /= sR sym_congr. Qed.
Lemma S_pd H Rm P : psd P -> pd Rm -> pd (t_S H Rm P).
Proof. by move=> pP pR; apply: pdD pR; apply: psd_congr. Qed.
Lemma S_psd H Rm P : psd P -> psd Rm -> psd (t_S H Rm P).
Proof. by move=> pP pR; apply: psdD pR; apply: psd_congr. Qed.

Lemma KS H Rm P : t_S H Rm P \in unitmx -> t_K H Rm P *m t_S H Rm P = P *m H^T.
Proof. by move=> uS; rewrite /t_K mulmxKV. Qed.

Lemma HP_KS H Rm P : sym P -> sym (t_S H Rm P) -> t_S H Rm P \in unitmx ->
  H *m P = t_S H Rm P *m (t_K H Rm P)^T.
Proof.
move=> sP sS uS; have := congr1 trmx (KS uS).
by rewrite [LHS]trmx_mul [RHS]trmx_mul trmxK sP sS.
Qed.

Lemma Ppost_KSK H Rm P : sym P -> pd (t_S H Rm P) ->
  P - Ppost H Rm P = t_K H Rm P *m t_S H Rm P *m (t_K H Rm P)^T.
Proof.
move=> sP pS; have [sS _] := pS; have uS := pd_unit pS.
rewrite /Ppost -[RHS]mulmxA -HP_KS //; zmod.
Qed.

Lemma correct_decreases H Rm P : sym P -> pd (t_S H Rm P) -> lemx (Ppost H Rm P) P.
Proof. by move=> sP pS; rewrite /lemx Ppost_KSK //; apply/psd_congr/pd_psd. Qed.

(** any other gain is worse *)
Lemma joseph_any H Rm P G : sym P -> pd (t_S H Rm P) ->
  joseph H Rm P G = Ppost H Rm P + (G - t_K H Rm P) *m t_S H Rm P *m (G - t_K H Rm P)^T.
Proof.
move=> sP pS; have [sS _] := pS; have uS := pd_unit pS.
pose K := t_K H Rm P; pose S := t_S H Rm P.
have EHP : S *m K^T = H *m P by rewrite /S /K -HP_KS.
have EPH : K *m S = P *m H^T by rewrite KS.
have ES : S = H *m P *m H^T + Rm by [].
rewrite /Ppost /joseph -/K -/S [(G - K)^T]linearB /= [(1%:M - _)^T]linearB /= trmx1 trmx_mul.
have -> : (G - K) *m S *m (G^T - K^T) = G *m (H *m P *m H^T + Rm) *m G^T - G *m (H *m P) - P *m H^T *m G^T + K *m (H *m P).
  rewrite -ES -EHP -EPH; mxzmod.
mxzmod.
Qed.

Lemma joseph_K H Rm P : sym P -> pd (t_S H Rm P) -> joseph H Rm P (t_K H Rm P) = Ppost H Rm P.
Proof. by move=> sP pS; rewrite joseph_any // subrr !mul0mx addr0. Qed.

Lemma joseph_opt H Rm P G : sym P -> pd (t_S H Rm P) -> lemx (Ppost H Rm P) (joseph H Rm P G).
Proof.
by move=> sP pS; rewrite /lemx joseph_any // addrC addKr; apply/psd_congr/pd_psd.
Qed.
(** ... and strictly so, unless it has the same effect *)
Lemma joseph_opt_uniq H Rm P G : sym P -> pd (t_S H Rm P) ->
  joseph H Rm P G = Ppost H Rm P -> G = t_K H Rm P.
Proof.
move=> sP pS; rewrite joseph_any // => /eqP; rewrite -subr_eq0 addrC addKr => /eqP H0.
apply/eqP; rewrite -subr_eq0; apply/eqP; set D := G - _ in H0 *.
apply: trmx_inj; apply/matrixP => i j.
have q0 : qf (t_S H Rm P) (D^T *m delta_mx j 0) = 0 by rewrite -qf_congr H0 qf0.
have : D^T *m (delta_mx j 0 : 'cV_n) = 0.
  apply/eqP; apply: contraT => Hne; have := proj2 pS _ Hne; by rewrite q0 ltxx.
by move/matrixP/(_ i 0); rewrite -colE !mxE.
Qed.

Lemma joseph_psd H Rm P G : psd P -> psd Rm -> psd (joseph H Rm P G).
Proof. by move=> pP pR; apply: psdD; apply: psd_congr. Qed.

Lemma joseph_le H Rm P1 P2 G : lemx P1 P2 -> lemx (joseph H Rm P1 G) (joseph H Rm P2 G).
Proof. by move=> H12; apply: lemxD; [apply: lemx_congr|apply: lemx_refl]. Qed.
Lemma joseph_leR H R1 R2 P G : lemx R1 R2 -> lemx (joseph H R1 P G) (joseph H R2 P G).
Proof. by move=> H12; apply: lemxD; [apply: lemx_refl|apply: lemx_congr]. Qed.

Lemma Ppost_psd H Rm P : psd P -> psd Rm -> pd (t_S H Rm P) -> psd (Ppost H Rm P).
Proof. by move=> pP pR pS; rewrite -joseph_K //; [apply: joseph_psd|case: pP]. Qed.

(** monotone in prior covariance and in measurement noise *)
Lemma Ppost_mono H R1 R2 P1 P2 : sym P1 -> sym P2 -> pd (t_S H R1 P1) -> pd (t_S H R2 P2) ->
  lemx P1 P2 -> lemx R1 R2 -> lemx (Ppost H R1 P1) (Ppost H R2 P2).
Proof.
move=> s1 s2 pS1 pS2 HP HR; rewrite -(joseph_K s2 pS2).
apply: lemx_trans (joseph_opt (t_K H R2 P2) s1 pS1) _.
apply: lemx_trans (joseph_leR _ _ _ HR) _; exact: joseph_le.
Qed.

(** P' H^T = K R *)
Lemma Ppost_HT H Rm P : t_S H Rm P \in unitmx -> Ppost H Rm P *m H^T = t_K H Rm P *m Rm.
Proof.
move=> uS; have ES : H *m P *m H^T = t_S H Rm P - Rm by rewrite /t_S; zmod.
rewrite /Ppost mulmxBl -[X in _ - X]mulmxA ES mulmxBr KS //; zmod.
Qed.

Lemma H_Ppost H Rm P : sym P -> sym Rm -> pd (t_S H Rm P) ->
  H *m Ppost H Rm P = Rm *m invmx (t_S H Rm P) *m (H *m P).
Proof.
move=> sP sR pS; have uS := pd_unit pS; set S := t_S H Rm P.
rewrite /Ppost mulmxBr [H *m (_ *m _)]mulmxA.
have -> : H *m t_K H Rm P = 1%:M - Rm *m invmx S.
  rewrite /t_K -/S !mulmxA; have -> : H *m P *m H^T = S - Rm by rewrite /S /t_S; zmod.
  by rewrite mulmxBl mulmxV.
by rewrite mulmxBl mul1mx opprB addrC subrK.
Qed.

(** the predicted measurement has at most the sensor's own uncertainty *)
Lemma HPH_le_R H Rm P : sym P -> sym Rm -> pd (t_S H Rm P) ->
  Rm - H *m Ppost H Rm P *m H^T = Rm *m invmx (t_S H Rm P) *m Rm^T.
Proof.
move=> sP sR pS; have uS := pd_unit pS; rewrite sR H_Ppost // -[X in _ - X]mulmxA.
have -> : H *m P *m H^T = t_S H Rm P - Rm by rewrite /t_S; zmod.
rewrite mulmxBr -[X in _ - (X - _)]mulmxA mulVmx // mulmx1; zmod.
Qed.

(** information form *)
Lemma info_inv H Rm P : pd P -> pd Rm ->
  Ppost H Rm P *m (invmx P + H^T *m invmx Rm *m H) = 1%:M.
Proof.
move=> pP pR; have uP := pd_unit pP; have uR := pd_unit pR.
have pS : pd (t_S H Rm P) by apply: S_pd => //; apply: pd_psd.
rewrite mulmxDr [Ppost _ _ _ *m (_ *m _)]mulmxA [Ppost _ _ _ *m (_ *m _)]mulmxA Ppost_HT ?pd_unit //.
rewrite -[t_K _ _ _ *m Rm *m _]mulmxA mulmxV // mulmx1 /Ppost mulmxBl mulmxV //.
rewrite -[X in _ - X]mulmxA -[H *m P *m _]mulmxA mulmxV // mulmx1; zmod.
Qed.
Lemma info_form H Rm P : pd P -> pd Rm ->
  invmx (Ppost H Rm P) = invmx P + H^T *m invmx Rm *m H.
Proof. by move=> pP pR; symmetry; apply: inv_uniq; apply: info_inv. Qed.
Lemma Ppost_pd H Rm P : pd P -> pd Rm -> pd (Ppost H Rm P).
Proof.
move=> pP pR; have E := info_inv H pP pR.
have pI : pd (invmx P + H^T *m invmx Rm *m H).
  apply: pdDr; first exact: pd_inv.
  by rewrite -[X in _ *m X]trmxK; apply/psd_congr/pd_psd/pd_inv.
by have -> : Ppost H Rm P = invmx (invmx P + H^T *m invmx Rm *m H);
  [apply: inv_uniq; apply: mulmx1C | apply: pd_inv].
Qed.
Lemma K_info H Rm P : pd P -> pd Rm -> t_K H Rm P = Ppost H Rm P *m H^T *m invmx Rm.
Proof.
move=> pP pR; rewrite Ppost_HT ?mulmxK ?pd_unit //; apply: S_pd => //; exact: pd_psd.
Qed.

Lemma info_state H Rm z s : pd (e_P s) -> pd Rm ->
  invmx (e_P (t_correct H Rm z s)) *m e_x (t_correct H Rm z s) =
  invmx (e_P s) *m e_x s + H^T *m invmx Rm *m z.
Proof.
case: s => x P /= pP pR; rewrite -/(Ppost H Rm P).
have pP' := Ppost_pd H pP pR.
rewrite mulmxDr K_info // !mulmxA mulVmx ?pd_unit // mul1mx info_form //; mxzmod.
Qed.

(** weighted least squares *)
Lemma wls_core (V : 'M[R]_n) (W : 'M[R]_m) H (a d : 'cV[R]_n) (b : 'cV[R]_m) : sym V -> sym W ->
  V *m a = H^T *m W *m b ->
  qf V (a + d) + qf W (b - H *m d) = qf V a + qf W b + qf (V + H^T *m W *m H) d.
Proof.
move=> sV sW G0; rewrite qfD !qf_add.
have -> : qf (H^T *m W *m H) d = qf W (- (H *m d)).
  rewrite -[X in qf (_ *m X)]trmxK qf_congr trmxK.
  by rewrite /qf [(- _)^T]linearN /= !mulNmx mulmxN opprK.
have T1 : d^T *m V *m a = (H *m d)^T *m W *m b.
  by rewrite -mulmxA G0 trmx_mul !mulmxA.
have T2 : a^T *m V *m d = b^T *m W *m (H *m d).
  apply: trmx_inj; rewrite [LHS]trmx_mul [RHS]trmx_mul ![(_ *m _)^T in LHS]trmx_mul ![(_^T *m _)^T in RHS]trmx_mul !trmxK sV sW.
  by rewrite [LHS]mulmxA [RHS]mulmxA.
rewrite T1 T2 [(- _)^T]linearN /= !mulNmx !mulmxN.
rewrite ![(- _ : 'M_1) 0 0]mxE; zmod.
Qed.

Lemma wls_min H Rm z s xi : pd (e_P s) -> pd Rm ->
  wls H Rm z s xi = wls H Rm z s (e_x (t_correct H Rm z s)) +
                    qf (invmx (e_P (t_correct H Rm z s))) (xi - e_x (t_correct H Rm z s)).
Proof.
move=> pP pR; set s' := t_correct H Rm z s.
have E := info_state H z pP pR; rewrite -/s' in E.
have E2 : invmx (e_P s') = invmx (e_P s) + H^T *m invmx Rm *m H by apply: info_form.
set x' := e_x s' in E *; set x := e_x s in E *.
set V := invmx (e_P s) in E E2 *; set W := invmx Rm in E E2 *.
have sV : sym V by case: (pd_inv pP).
have sW : sym W by case: (pd_inv pR).
have [d Exi] : exists d, xi = x' + d by exists (xi - x'); zmod.
have G0 : V *m (x' - x) = H^T *m W *m (z - H *m x').
  move: E; rewrite E2 mulmxDl => E; rewrite mulmxBr mulmxBr.
  apply/eqP; rewrite subr_eq; apply/eqP.
  have -> : H^T *m W *m z = (V *m x' + H^T *m W *m H *m x') - V *m x by rewrite E; zmod.
  rewrite !mulmxA; zmod.
have -> : xi - x' = d by rewrite Exi; zmod.
rewrite /wls -/x -/V -/W E2 qfD.
have -> : xi - x = (x' - x) + d by rewrite Exi; zmod.
have -> : z - H *m xi = (z - H *m x') - H *m d by rewrite Exi mulmxDr; zmod.
by rewrite wls_core // qfD.
Qed.

Lemma wls_unique H Rm z s xi : pd (e_P s) -> pd Rm ->
  xi != e_x (t_correct H Rm z s) -> wls H Rm z s (e_x (t_correct H Rm z s)) < wls H Rm z s xi.
Proof.
move=> pP pR Hne; rewrite (wls_min H z xi pP pR) ltr_addl.
have [_ H'] := pd_inv (Ppost_pd H pP pR); apply: H'; by rewrite subr_eq0.
Qed.

(** residual after the correction *)
Lemma residual H Rm z s : t_S H Rm (e_P s) \in unitmx ->
  z - H *m e_x (t_correct H Rm z s) = Rm *m invmx (t_S H Rm (e_P s)) *m (z - H *m e_x s).
Proof.
case: s => x P /= uS; set y := z - H *m x; set S := t_S H Rm P.
have -> : z - H *m (x + t_K H Rm P *m y) = y - H *m t_K H Rm P *m y by rewrite /y; mxzmod.
have -> : H *m t_K H Rm P = 1%:M - Rm *m invmx S.
  rewrite /t_K -/S !mulmxA; have -> : H *m P *m H^T = S - Rm by rewrite /S /t_S; zmod.
  by rewrite mulmxBl mulmxV.
mxzmod.
Qed.

Lemma zero_innovation H Rm s : e_x (t_correct H Rm (H *m e_x s) s) = e_x s.
Proof. by rewrite /= subrr mulmx0 addr0. Qed.

(** error recursion *)
Lemma correct_error H Rm s xt v :
  e_x (t_correct H Rm (H *m xt + v) s) - xt =
  (1%:M - t_K H Rm (e_P s) *m H) *m (e_x s - xt) + t_K H Rm (e_P s) *m v.
Proof. rewrite /t_correct /t_update /=; mxzmod. Qed.

(** perfect certainty is not disturbed *)
Lemma correct_certain H Rm z x : t_correct H Rm z (Est x 0) = Est x 0.
Proof. by rewrite /t_correct /t_update /t_K /= !mul0mx addr0 subr0. Qed.

(** change of state coordinates *)
Lemma t_S_coord T H Rm P : T \in unitmx -> t_S (H *m invmx T) Rm (T *m P *m T^T) = t_S H Rm P.
Proof.
move=> uT; rewrite /t_S trmx_mul trmx_inv !mulmxA; congr (_ + _).
by rewrite mulmxKV // -[_ *m T^T *m _]mulmxA mulmxV ?unitmx_tr // mulmx1.
Qed.
Lemma t_K_coord T H Rm P : T \in unitmx -> t_K (H *m invmx T) Rm (T *m P *m T^T) = T *m t_K H Rm P.
Proof.
move=> uT; rewrite /t_K t_S_coord // trmx_mul trmx_inv !mulmxA; congr (_ *m _ *m _).
by rewrite mulmxK ?unitmx_tr.
Qed.
Lemma correct_coord T H Rm z s : T \in unitmx ->
  t_correct (H *m invmx T) Rm z (Est (T *m e_x s) (T *m e_P s *m T^T)) =
  Est (T *m e_x (t_correct H Rm z s)) (T *m e_P (t_correct H Rm z s) *m T^T).
Proof.
move=> uT; rewrite /t_correct /t_update /= t_K_coord //; congr Est.
  rewrite [H *m _ *m _]mulmxA mulmxKV //; mxzmod.
rewrite !mulmxA mulmxKV //; mxzmod.
Qed.

(** change of measurement units *)
Lemma correct_units M H Rm z s : M \in unitmx -> t_S H Rm (e_P s) \in unitmx ->
  t_correct (M *m H) (M *m Rm *m M^T) (M *m z) s = t_correct H Rm z s.
Proof.
case: s => x P /= uM uS; rewrite /t_correct /t_update /=.
have ES : t_S (M *m H) (M *m Rm *m M^T) P = M *m t_S H Rm P *m M^T by rewrite /t_S trmx_mul; mxzmod.
have EK : t_K (M *m H) (M *m Rm *m M^T) P *m M = t_K H Rm P.
  rewrite /t_K ES trmx_mul !inv_mul ?unitmx_tr ?unitmx_mul ?uM ?uS //.
  by rewrite !mulmxA mulmxK ?unitmx_tr // mulmxKV.
congr Est.
  by rewrite -[M *m H *m x]mulmxA -mulmxBr mulmxA EK.
by rewrite -[M *m H *m P]mulmxA [t_K _ _ _ *m (M *m _)]mulmxA EK.
Qed.

(** scaling all covariances *)
Lemma correct_scale a H Rm z s : a != 0 -> t_S H Rm (e_P s) \in unitmx ->
  t_correct H (a *: Rm) z (Est (e_x s) (a *: e_P s)) =
  Est (e_x (t_correct H Rm z s)) (a *: e_P (t_correct H Rm z s)).
Proof.
case: s => x P /= Ha uS; rewrite /t_correct /t_update /=.
have ES : t_S H (a *: Rm) (a *: P) = a *: t_S H Rm P by rewrite /t_S -scalemxAr -scalemxAl scalerDr.
have EK : t_K H (a *: Rm) (a *: P) = t_K H Rm P.
  rewrite /t_K ES -scalemxAl invmxZ ?unitmxZ ?unitfE // -scalemxAl -scalemxAr scalerA.
  by rewrite divff // scale1r.
by rewrite EK; congr Est; rewrite -scalemxAr -scalemxAr scalerBr.
Qed.

(** superposition *)
Lemma correct_super H Rm z1 z2 x1 x2 P :
  e_x (t_correct H Rm (z1 + z2) (Est (x1 + x2) P)) =
  e_x (t_correct H Rm z1 (Est x1 P)) + e_x (t_correct H Rm z2 (Est x2 P)).
Proof. rewrite /t_correct /t_update /=; mxzmod. Qed.

End Correction.

(** ** Two independent observations *)
Section Stack.
Variable R : rcfType.
Variables (n m1 m2 : nat).
Implicit Types (P : 'M[R]_n) (s : est R n).
Variables (H1 : 'M[R]_(m1, n)) (R1 : 'M[R]_m1) (H2 : 'M[R]_(m2, n)) (R2 : 'M[R]_m2).
Local Notation H := (col_mx H1 H2).
Local Notation Rm := (block_mx R1 0 0 R2).

Lemma stack_S P : t_S H Rm P =
  block_mx (t_S H1 R1 P) (H1 *m P *m H2^T) (H2 *m P *m H1^T) (t_S H2 R2 P).
Proof.
rewrite /t_S tr_col_mx mul_col_mx mul_col_mx !mul_mx_row -/(block_mx _ _ _ _) add_block_mx.
by rewrite !addr0.
Qed.

Lemma stack_R_pd : pd R1 -> pd R2 -> pd Rm.
Proof.
move=> [s1 p1] [s2 p2]; split.
  by rewrite /sym tr_block_mx s1 s2 !trmx0.
move=> v; rewrite -[v]vsubmxK; set a := usubmx v; set b := dsubmx v => Hv.
have -> : qf Rm (col_mx a b) = qf R1 a + qf R2 b.
  by rewrite /qf tr_col_mx mul_row_block !mulmx0 addr0 add0r mul_row_col mxE.
have Hq1 : 0 <= qf R1 a by have [->|/p1/ltW //] := eqVneq a 0; rewrite qf_0.
have Hq2 : 0 <= qf R2 b by have [->|/p2/ltW //] := eqVneq b 0; rewrite qf_0.
have [Ha|/p1 Ha] := eqVneq a 0; last by rewrite ltr_paddr.
have [Hb|/p2 Hb] := eqVneq b 0; last by rewrite ltr_paddl.
by move: Hv; rewrite Ha Hb col_mx0 eqxx.
Qed.

(** gains characterised by the normal equations *)
Lemma stack_K P G1 G2 : t_S H Rm P \in unitmx ->
  G1 *m t_S H1 R1 P + G2 *m (H2 *m P *m H1^T) = P *m H1^T ->
  G1 *m (H1 *m P *m H2^T) + G2 *m t_S H2 R2 P = P *m H2^T ->
  t_K H Rm P = row_mx G1 G2.
Proof.
move=> uS E1 E2; rewrite -[RHS](mulmxK uS) /t_K; congr (_ *m _).
by rewrite stack_S mul_row_block E1 E2 tr_col_mx mul_mx_row.
Qed.

Lemma stack_correct P G1 G2 x z1 z2 : t_K H Rm P = row_mx G1 G2 ->
  t_correct H Rm (col_mx z1 z2) (Est x P) =
  Est (x + (G1 *m (z1 - H1 *m x) + G2 *m (z2 - H2 *m x))) (P - (G1 *m (H1 *m P) + G2 *m (H2 *m P))).
Proof.
rewrite /t_correct /t_update /= => ->; congr Est.
  by rewrite mul_col_mx opp_col_mx add_col_mx mul_row_col.
by rewrite mul_col_mx mul_row_col.
Qed.

(** first the first, then the second observation *)
Lemma seq_12 z1 z2 s : let P := e_P s in
  t_S H1 R1 P \in unitmx -> t_S H2 R2 (Ppost H1 R1 P) \in unitmx -> t_S H Rm P \in unitmx ->
  t_correct H2 R2 z2 (t_correct H1 R1 z1 s) = t_correct H Rm (col_mx z1 z2) s.
Proof.
case: s => x P /= u1 u2 uS.
set K1 := t_K H1 R1 P; set K2 := t_K H2 R2 (Ppost H1 R1 P).
have E1 : K1 *m t_S H1 R1 P = P *m H1^T by apply: KS.
have E2 : K2 *m t_S H2 R2 (Ppost H1 R1 P) = Ppost H1 R1 P *m H2^T by apply: KS.
rewrite (@stack_correct P (K1 - K2 *m H2 *m K1) K2).
  rewrite /t_correct /t_update /= -/K1 -/(Ppost H1 R1 P) -/K2; congr Est.
    mxzmod.
  rewrite /Ppost -/K1; mxzmod.
apply: stack_K => //.
  rewrite mulmxBl -[X in _ - X]mulmxA E1; mxzmod.
have EP : Ppost H1 R1 P = P - K1 *m (H1 *m P) by [].
have -> : t_S H2 R2 P = t_S H2 R2 (Ppost H1 R1 P) + H2 *m (K1 *m (H1 *m P)) *m H2^T.
  rewrite /t_S EP; mxzmod.
rewrite mulmxDr E2 EP; mxzmod.
Qed.

(** first the second, then the first observation *)
Lemma seq_21 z1 z2 s : let P := e_P s in
  t_S H2 R2 P \in unitmx -> t_S H1 R1 (Ppost H2 R2 P) \in unitmx -> t_S H Rm P \in unitmx ->
  t_correct H1 R1 z1 (t_correct H2 R2 z2 s) = t_correct H Rm (col_mx z1 z2) s.
Proof.
case: s => x P /= u1 u2 uS.
set K2 := t_K H2 R2 P; set K1 := t_K H1 R1 (Ppost H2 R2 P).
have E2 : K2 *m t_S H2 R2 P = P *m H2^T by apply: KS.
have E1 : K1 *m t_S H1 R1 (Ppost H2 R2 P) = Ppost H2 R2 P *m H1^T by apply: KS.
rewrite (@stack_correct P K1 (K2 - K1 *m H1 *m K2)).
  rewrite /t_correct /t_update /= -/K2 -/(Ppost H2 R2 P) -/K1; congr Est.
    mxzmod.
  rewrite /Ppost -/K2; mxzmod.
apply: stack_K => //.
  have EP : Ppost H2 R2 P = P - K2 *m (H2 *m P) by [].
  have -> : t_S H1 R1 P = t_S H1 R1 (Ppost H2 R2 P) + H1 *m (K2 *m (H2 *m P)) *m H1^T.
    rewrite /t_S EP; mxzmod.
  rewrite mulmxDr E1 EP; mxzmod.
rewrite mulmxBl -[X in _ - X]mulmxA E2; mxzmod.
Qed.

Lemma stacked_12 z1 z2 s : psd (e_P s) -> pd R1 -> pd R2 ->
  t_correct H2 R2 z2 (t_correct H1 R1 z1 s) = t_correct H Rm (col_mx z1 z2) s.
Proof.
move=> pP p1 p2; have pS1 := S_pd H1 pP p1.
apply: seq_12; apply: pd_unit => //; apply: S_pd => //; last exact: stack_R_pd.
by apply: Ppost_psd => //; apply: pd_psd.
Qed.
Lemma stacked_21 z1 z2 s : psd (e_P s) -> pd R1 -> pd R2 ->
  t_correct H1 R1 z1 (t_correct H2 R2 z2 s) = t_correct H Rm (col_mx z1 z2) s.
Proof.
move=> pP p1 p2; have pS2 := S_pd H2 pP p2.
apply: seq_21; apply: pd_unit => //; apply: S_pd => //; last exact: stack_R_pd.
by apply: Ppost_psd => //; apply: pd_psd.
Qed.
Lemma correct_comm z1 z2 s : psd (e_P s) -> pd R1 -> pd R2 ->
  t_correct H2 R2 z2 (t_correct H1 R1 z1 s) = t_correct H1 R1 z1 (t_correct H2 R2 z2 s).
Proof. by move=> pP p1 p2; rewrite stacked_12 // stacked_21. Qed.

End Stack.

(** ** Prediction and control *)
Section Predict.
Variable R : rcfType.
Variable n : nat.
Implicit Types (A P Q : 'M[R]_n) (s : est R n).

Lemma predict_psd A Q s : psd (e_P s) -> psd Q -> psd (e_P (t_predict A Q s)).
Proof. by move=> pP pQ; apply: psdD => //; apply: psd_congr. Qed.
Lemma tuned_psd lam A Q s : psd (e_P s) -> psd Q -> psd (e_P (t_predict_tuned lam A Q s)).
Proof.
move=> pP pQ; apply: psdD => //; apply: psdZ; last exact: psd_congr.
by rewrite invr_ge0 sqr_ge0.
Qed.
Lemma control_psd m (B : 'M[R]_(n, m)) u Qc s : psd (e_P s) -> psd Qc -> psd (e_P (t_control B u Qc s)).
Proof. by move=> pP pQ; apply: psdD => //; apply: psd_congr. Qed.

Lemma tuned_1 A Q s : t_predict_tuned 1 A Q s = t_predict A Q s.
Proof. by rewrite /t_predict_tuned expr1n invr1 scale1r. Qed.

Lemma tuned_mono l1 l2 A Q s : 0 < l1 -> l1 <= l2 -> psd (e_P s) ->
  lemx (e_P (t_predict_tuned l2 A Q s)) (e_P (t_predict_tuned l1 A Q s)).
Proof.
move=> H1 H12 pP; rewrite /lemx /t_predict_tuned /=.
have -> : (l1 ^+ 2)^-1 *: (A *m e_P s *m A^T) + Q - ((l2 ^+ 2)^-1 *: (A *m e_P s *m A^T) + Q) =
  ((l1 ^+ 2)^-1 - (l2 ^+ 2)^-1) *: (A *m e_P s *m A^T) by rewrite scalerBl; zmod.
apply: psdZ; last exact: psd_congr.
have H2 : 0 < l2 by apply: lt_le_trans H12.
by rewrite subr_ge0 ler_pinv ?inE ?unitfE ?gt_eqF ?exprn_gt0 // ler_expn2r // ?nnegrE ltW.
Qed.

Lemma predict_mono A Q1 Q2 s1 s2 : lemx (e_P s1) (e_P s2) -> lemx Q1 Q2 ->
  lemx (e_P (t_predict A Q1 s1)) (e_P (t_predict A Q2 s2)).
Proof. by move=> HP HQ; apply: lemxD => //; apply: lemx_congr. Qed.
Lemma ptuned_mono lam A Q1 Q2 s1 s2 : lemx (e_P s1) (e_P s2) -> lemx Q1 Q2 ->
  lemx (e_P (t_predict_tuned lam A Q1 s1)) (e_P (t_predict_tuned lam A Q2 s2)).
Proof.
by move=> HP HQ; apply: lemxD => //; apply: lemxZ; [rewrite invr_ge0 sqr_ge0|apply: lemx_congr].
Qed.
Lemma control_mono m (B : 'M[R]_(n, m)) u1 u2 (Q1 Q2 : 'M[R]_m) s1 s2 : lemx (e_P s1) (e_P s2) -> lemx Q1 Q2 ->
  lemx (e_P (t_control B u1 Q1 s1)) (e_P (t_control B u2 Q2 s2)).
Proof. by move=> HP HQ; apply: lemxD => //; apply: lemx_congr. Qed.

(** coordinates *)
Lemma predict_coord T A Q s : T \in unitmx ->
  t_predict (T *m A *m invmx T) (T *m Q *m T^T) (Est (T *m e_x s) (T *m e_P s *m T^T)) =
  Est (T *m e_x (t_predict A Q s)) (T *m e_P (t_predict A Q s) *m T^T).
Proof.
move=> uT; rewrite /t_predict /=; congr Est; first by rewrite !mulmxA mulmxKV.
rewrite mulmxDr mulmxDl; congr (_ + _); rewrite !trmx_mul trmx_inv !mulmxA mulmxKV //.
by rewrite -[_ *m T^T *m invmx T^T]mulmxA mulmxV ?unitmx_tr // mulmx1.
Qed.
Lemma tuned_coord lam T A Q s : T \in unitmx ->
  t_predict_tuned lam (T *m A *m invmx T) (T *m Q *m T^T) (Est (T *m e_x s) (T *m e_P s *m T^T)) =
  Est (T *m e_x (t_predict_tuned lam A Q s)) (T *m e_P (t_predict_tuned lam A Q s) *m T^T).
Proof.
move=> uT; rewrite /t_predict_tuned /=; congr Est; first by rewrite !mulmxA mulmxKV.
rewrite mulmxDr mulmxDl -scalemxAr -scalemxAl; congr (_ *: _ + _).
rewrite !trmx_mul trmx_inv !mulmxA mulmxKV //.
by rewrite -[_ *m T^T *m invmx T^T]mulmxA mulmxV ?unitmx_tr // mulmx1.
Qed.
Lemma control_coord m (T : 'M[R]_n) (B : 'M[R]_(n, m)) u Qc s :
  t_control (T *m B) u Qc (Est (T *m e_x s) (T *m e_P s *m T^T)) =
  Est (T *m e_x (t_control B u Qc s)) (T *m e_P (t_control B u Qc s) *m T^T).
Proof. by rewrite /t_control /= trmx_mul; congr Est; mxzmod. Qed.

(** scaling *)
Lemma predict_scale a A Q s :
  t_predict A (a *: Q) (Est (e_x s) (a *: e_P s)) = Est (e_x (t_predict A Q s)) (a *: e_P (t_predict A Q s)).
Proof. by rewrite /t_predict /= scalerDr -scalemxAr -scalemxAl. Qed.
Lemma tuned_scale a lam A Q s :
  t_predict_tuned lam A (a *: Q) (Est (e_x s) (a *: e_P s)) =
  Est (e_x (t_predict_tuned lam A Q s)) (a *: e_P (t_predict_tuned lam A Q s)).
Proof. by rewrite /t_predict_tuned /= scalerDr -scalemxAr -scalemxAl !scalerA mulrC. Qed.
Lemma control_scale m a (B : 'M[R]_(n, m)) u Qc s :
  t_control B u (a *: Qc) (Est (e_x s) (a *: e_P s)) =
  Est (e_x (t_control B u Qc s)) (a *: e_P (t_control B u Qc s)).
Proof. by rewrite /t_control /= scalerDr -!scalemxAr -!scalemxAl. Qed.

(** powers *)
Lemma mxpowS A k : mxpow A k.+1 = A *m mxpow A k. Proof. by []. Qed.

Lemma predict_iter A Q s k :
  iter k (t_predict A Q) s =
  Est (mxpow A k *m e_x s)
      (mxpow A k *m e_P s *m (mxpow A k)^T + \sum_(i < k) mxpow A i *m Q *m (mxpow A i)^T).
Proof.
elim: k => [|k IH].
  by case: s => x P; rewrite /= mul1mx trmx1 mulmx1 mul1mx big_ord0 addr0.
rewrite iterS IH /t_predict /=; congr Est; first by rewrite mulmxA.
rewrite big_ord_recl /= !mul1mx trmx1 mulmx1 mulmxDr mulmxDl mulmx_sumr mulmx_suml.
rewrite -addrA; congr (_ + _); first by rewrite trmx_mul !mulmxA.
rewrite addrC; congr (_ + _); apply: eq_bigr => i _.
by rewrite trmx_mul !mulmxA.
Qed.
End Predict.
