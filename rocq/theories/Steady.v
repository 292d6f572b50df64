(** * Steady state: the covariance of a repeated cycle of calls converges geometrically, from whatever start *)
From Verif Require Import Spec Matrix Filter Extended SpecFilter History SpecGen SpecExact SpecHistory SpecWorld SpecCycle SpecMap SpecFade SpecSteady.
From Verif Require Import Zmod Psd KMath HistGen FilterExact HistExact WorldMath HistMain SpecProb ProbMath MapMath Forget Fade CycleMain.
From mathcomp Require Import all_ssreflect all_algebra.
Set Implicit Arguments.
Unset Strict Implicit.
Unset Printing Implicit Defensive.
Import Order.TTheory GRing.Theory Num.Theory.
Local Open Scope ring_scope.

Section Steady.
Variable R : rcfType.
Variables (c : cfg) (n : nat).
Local Notation N := (@exact_num R).
Local Notation abs := (world_abs n).
Local Notation den w os ts := (List.Forall2 (@denotes R c n w) os ts).
Local Notation wP w := (mx n n (kf_P (w_kf w))).
Local Notation wx w := (mx n 1 (kf_x (w_kf w))).
Local Notation cP w := (e_P (tw_s w)).
Implicit Types (w : tworld R n) (t : top R n) (ts : seq (top R n)).

Lemma pd_up (A B : 'M[R]_n) : pd A -> lemx A B -> pd B.
Proof. by move=> pA L; rewrite -[B](subrK A); apply: pdD. Qed.

Lemma mats_trans w1 w2 w3 : mats w1 w2 -> mats w2 w3 -> mats w1 w3.
Proof.
move=> [a1 [a2 [a3 a4]]] [b1 [b2 [b3 b4]]]; do 2 (split; first congruence); split.
- move: (tw_ct w3) b3; elim: a3 => [|k1 k2 l1 l2 H _ IH] l3 H3; first by inversion H3; constructor.
  have [k3 [l [E3 [Ha Hb]]]] : exists k3 l, l3 = k3 :: l /\ ctl_cov k2 k3 /\ List.Forall2 (@ctl_cov R n) l2 l by inversion H3 as [|? k3 ? l]; subst; exists k3, l.
  rewrite E3; constructor; last exact: IH.
  by case: k1 H => m B u Qc /ctl_covE [u2 E]; move: Ha; rewrite E => /ctl_covE [u3 ->]; constructor.
- move: (tw_ob w3) b4; elim: a4 => [|k1 k2 l1 l2 H _ IH] l3 H3; first by inversion H3; constructor.
  have [k3 [l [E3 [Ha Hb]]]] : exists k3 l, l3 = k3 :: l /\ obs_cov k2 k3 /\ List.Forall2 (@obs_cov R n) l2 l by inversion H3 as [|? k3 ? l]; subst; exists k3, l.
  rewrite E3; constructor; last exact: IH.
  by case: k1 H => m B u Qc /obs_covE [u2 E]; move: Ha; rewrite E => /obs_covE [u3 ->]; constructor.
Qed.
Lemma mats_step2 w1 w2 t1 t2 : mats w1 w2 -> skeleton t1 <> None -> skeleton t2 <> None -> mats (tstep w1 t1) (tstep w2 t2).
Proof. by move=> M H1 H2; apply: mats_sym; apply: mats_step H1; apply: mats_sym; apply: mats_step H2. Qed.
Lemma step_le_P w1 w2 t1 t2 : tw_good w1 -> tw_good w2 -> op_good w1 t1 -> op_good w2 t2 -> mats w1 w2 -> skeleton t1 <> None -> skeleton t1 = skeleton t2 ->
  lemx (cP w1) (cP w2) -> lemx (cP (tstep w1 t1)) (cP (tstep w2 t2)).
Proof.
move=> g1 g2 o1 o2 M S1 E L; have := step_le g1 g2 (mats_le M L) (@skel_le R n w1 t1 t2 S1 E).
by case=> _ [_ []].
Qed.

(** linear calls with definite predictions stay so from a larger covariance *)
Lemma F2nth A B (P : A -> B -> Prop) l1 l2 i : List.Forall2 P l1 l2 -> match nth_error l1 i, nth_error l2 i with Some a, Some b => P a b | None, None => True | _, _ => False end.
Proof. by move=> H; elim: H i => [|a b m1 m2 Hab _ IH] [|i] //=; apply: IH. Qed.
Lemma ls_up w1 w2 t1 t2 : mats w1 w2 -> skeleton t1 <> None -> skeleton t1 = skeleton t2 -> lemx (cP w1) (cP w2) -> ls_op w1 t1 -> ls_op w2 t2.
Proof.
move=> [EA [EQ [FC FO]]] S1 E L.
case: t1 E S1 => [|l|F|l F|i|j|j F|A|x|P|Q|i B|i u|i Q|j H|j z|j Q]; case: t2 => [|l'|F'|l' F'|i'|j'|j' F'|A'|x'|P'|Q'|i' B'|i' u'|i' Q'|j' H'|j' z'|j' Q'] //= E S1 //; rewrite -?EQ -?EA.
- move=> [pQ pW]; split=> //; apply: pd_up pW _ => /=; apply: lemxD; [exact: lemx_congr|exact: lemx_refl].
- case: E => <- [l0 [pQ pW]]; split=> //; split=> //; apply: pd_up pW _ => /=; apply: lemxD; last exact: lemx_refl.
  by apply: lemxZ; [rewrite invr_ge0 sqr_ge0|exact: lemx_congr].
- case: E => <-; have := F2nth i FC; case: nth_error => [k1|]; case: nth_error => [k2|] // [].
  by move=> m B u1 u2 Qc.
- case: E => <-; have := F2nth j FO; case: nth_error => [k1|]; case: nth_error => [k2|] // [].
  by move=> m B u1 u2 Qc.
Qed.
Lemma noisy_down th w1 w2 t1 t2 : 0 <= th -> mats w1 w2 -> skeleton t1 = skeleton t2 -> skeleton t1 <> None -> lemx (cP w1) (cP w2) -> noisy_op th w2 t2 -> noisy_op th w1 t1.
Proof.
move=> t0 [EA [EQ _]] E S1 L.
case: t1 E S1 => [|l|F|l F|i|j|j F|A|x|P|Q|i B|i u|i Q|j H|j z|j Q]; case: t2 => [|l'|F'|l' F'|i'|j'|j' F'|A'|x'|P'|Q'|i' B'|i' u'|i' Q'|j' H'|j' z'|j' Q'] //= E S1 //; rewrite -?EQ -?EA.
- by apply: lemx_trans; apply: lemxZ => //; exact: lemx_congr.
- case: E => ->; apply: lemx_trans; apply: lemxZ => //; apply: lemxZ; [by rewrite invr_ge0 sqr_ge0|exact: lemx_congr].
Qed.

Lemma run_ls_up w1 w2 ts1 ts2 : tw_good w1 -> tw_good w2 -> ops_good w1 ts1 -> ops_good w2 ts2 -> mats w1 w2 -> same_calls ts1 ts2 ->
  lemx (cP w1) (cP w2) -> ls_ops w1 ts1 -> ls_ops w2 ts2.
Proof.
move=> g1 g2 G1 G2 M H; elim: H w1 w2 g1 g2 G1 G2 M => [|t1 t2 l1 l2 [S1 E] _ IH] w1 w2 g1 g2 //= [o1 G1] [o2 G2] M L [h1 h2].
have S2 : skeleton t2 <> None by rewrite -E.
split; first exact: ls_up M S1 E L h1.
apply: (IH (tstep w1 t1)) => //; [exact: (proj2 (step_good g1 o1))|exact: (proj2 (step_good g2 o2))|exact: mats_step2|exact: step_le_P].
Qed.
Lemma run_noisy_down th w1 w2 ts1 ts2 : 0 <= th -> tw_good w1 -> tw_good w2 -> ops_good w1 ts1 -> ops_good w2 ts2 -> mats w1 w2 -> same_calls ts1 ts2 ->
  lemx (cP w1) (cP w2) -> noisy th w2 ts2 -> noisy th w1 ts1.
Proof.
move=> t0 g1 g2 G1 G2 M H; elim: H w1 w2 g1 g2 G1 G2 M => [|t1 t2 l1 l2 [S1 E] _ IH] w1 w2 g1 g2 //= [o1 G1] [o2 G2] M L [h1 h2].
have S2 : skeleton t2 <> None by rewrite -E.
split; first exact: noisy_down t0 M E S1 L h1.
apply: (IH _ (tstep w2 t2)) => //; [exact: (proj2 (step_good g1 o1))|exact: (proj2 (step_good g2 o2))|exact: mats_step2|exact: step_le_P].
Qed.
Lemma ls_cat w ts1 ts2 : ls_ops w (ts1 ++ ts2) <-> ls_ops w ts1 /\ ls_ops (trun w ts1) ts2.
Proof. by elim: ts1 w => [|t l IH] w /=; [split=> [|[]]|rewrite IH; split=> [[? []]|[[]]]]. Qed.
Lemma noisy_cat th w ts1 ts2 : noisy th w (ts1 ++ ts2) <-> noisy th w ts1 /\ noisy th (trun w ts1) ts2.
Proof. by elim: ts1 w => [|t l IH] w /=; [split=> [|[]]|rewrite IH; split=> [[? []]|[[]]]]. Qed.

Section Levels.
Variables (th : R) (w0 : tworld R n) (L U : 'M[R]_n) (ts0 : seq (top R n)).
Hypothesis t0 : 0 <= th.
Hypothesis g0 : tw_good w0.
Hypothesis Z : List.Forall (@no_zero_factor R n) ts0.
Hypothesis K0 : List.Forall (fun t => skeleton t <> None) ts0.
Hypothesis pL : pd L.
Hypothesis LU : lemx L U.
Hypothesis HL : lemx L (cov_after w0 ts0 L).
Hypothesis HU : lemx (cov_after w0 ts0 U) U.
Hypothesis lsL : ls_ops (start w0 L) ts0.
Hypothesis noU : noisy th (start w0 U) ts0.

Definition inside w := [/\ mats w0 w, tw_good w, lemx L (cP w) & lemx (cP w) U].
Lemma psdU : psd U. Proof. exact/pd_psd/(pd_up pL). Qed.
Lemma start_good P : psd P -> tw_good (start w0 P).
Proof. by move=> p; case: g0 => _ H; split. Qed.
Lemma start_mats P w : mats w0 w -> mats (start w0 P) w. Proof. by []. Qed.
Lemma inside_pd w : inside w -> pd (cP w).
Proof. by case=> _ _ H _; exact: pd_up H. Qed.

Lemma inside_cycle w ts : inside w -> same_calls ts0 ts -> [/\ inside (trun w ts), ls_ops w ts & noisy th w ts].
Proof.
move=> [M g h1 h2] S; have [K Zt] := same_skel S; have {}Zt := Zt Z.
have G : ops_good w ts by apply: skel_good.
have gL := start_good (pd_psd pL); have gU := start_good psdU.
have GL : ops_good (start w0 L) ts0 by apply: skel_good.
have GU : ops_good (start w0 U) ts0 by apply: skel_good.
have ML := start_mats L M; have MU := start_mats U M.
have rL : tw_le (trun (start w0 L) ts0) (trun w ts) by apply: run_le => //; [exact: mats_le|exact: same_le].
have rU : tw_le (trun w ts) (trun (start w0 U) ts0).
  by apply: run_le => //; [exact: mats_le (mats_sym MU) h2|apply: same_le; exact: same_sym].
split.
- split; [exact: mats_run|by have [_] := run_good g G|apply: lemx_trans HL _; by case: rL => _ [_ []]|apply: lemx_trans _ HU; by case: rU => _ [_ []]].
- exact: run_ls_up gL g GL G ML S h1 lsL.
- exact: run_noisy_down t0 g gU G GU (mats_sym MU) (same_sym S) h2 noU.
Qed.
Lemma inside_cycles w tss : inside w -> cyc ts0 tss -> [/\ inside (trun w (flatten tss)), ls_ops w (flatten tss) & noisy th w (flatten tss)].
Proof.
move=> I C; elim: C w I => [|ts l S _ IH] w I //=.
have [I1 h1 n1] := inside_cycle I S; have [I2 h2 n2] := IH _ I1.
by split; [rewrite trun_cat|apply/ls_cat|apply/noisy_cat].
Qed.
Lemma predictions_cyc tss : cyc ts0 tss -> predictions (flatten tss) = (size tss * predictions ts0)%N.
Proof.
have P ts : same_calls ts0 ts -> predictions ts = predictions ts0.
  rewrite /predictions => H; elim: H => [|t1 t2 l1 l2 [S E] _ IH] //=; rewrite IH; congr (nat_of_bool _ + _)%N.
  by case: t1 S E => //; case: t2.
by elim=> [|ts l S _ IH] //=; rewrite /predictions count_cat -!/(predictions _) IH P // mulSn.
Qed.

Lemma same_len w1 w2 tss1 tss2 al : 1 <= al -> lemx U (al *: L) -> inside w1 -> inside w2 -> cyc ts0 tss1 -> cyc ts0 tss2 -> size tss1 = size tss2 ->
  lemx (cP (trun w2 (flatten tss2)) - cP (trun w1 (flatten tss1))) (((al - 1) / (1 + th) ^+ (size tss1 * predictions ts0)) *: U).
Proof.
move=> a1 LUa I1 I2 C1 C2 ES.
have [J1 l1 n1] := inside_cycles I1 C1; have [J2 l2 n2] := inside_cycles I2 C2.
have [M1 g1 L1 U1] := I1; have [M2 g2 L2 U2] := I2; have [_ _ _ UJ1] := J1.
have Is : inside (tw_est w1 (tw_s w2)).
  by split=> //; case: g1 => _ H; split=> //; case: g2.
have [_ ls _] := inside_cycles Is C1.
have Lal : lemx (cP w2) (al *: cP w1).
  apply: lemx_trans U2 _; apply: lemx_trans LUa _; apply: lemxZ => //; exact: le_trans ler01 a1.
have H := run_alpha' t0 a1 (inside_pd I1) (inside_pd I2) l1 ls n1 Lal.
rewrite predictions_cyc // in H; set b := (al - 1) / _ in H *.
have b0 : 0 <= b by rewrite divr_ge0 ?subr_ge0 // exprn_ge0 // addr_ge0 // ler01.
have G2 := skel_good w2 (proj1 (cyc_good w2 (size tss2) C2 Z)); rewrite take_size in G2.
have H2 : tw_le (trun w2 (flatten tss2)) (trun (tw_est w1 (tw_s w2)) (flatten tss1)).
  have gs : tw_good (tw_est w1 (tw_s w2)) by case: Is.
  have Ms : tw_le w2 (tw_est w1 (tw_s w2)) by apply: mats_le; [exact: mats_trans (mats_sym M2) M1|exact: lemx_refl].
  have := @cyc_le R n w2 (tw_est w1 (tw_s w2)) ts0 tss2 tss1 (size tss1) g2 gs Ms Z C2 C1.
  by rewrite -{1}ES leqnn => /(_ isT isT); rewrite {1}ES !take_size.
have {}H2 : lemx (cP (trun w2 (flatten tss2))) (cP (trun (tw_est w1 (tw_s w2)) (flatten tss1))) by case: H2 => _ [_ []].
rewrite /lemx; have := lemx_trans (lemx_trans H2 H) _ => /(_ (cP (trun w1 (flatten tss1)) + b *: U)).
have UB : lemx ((1 + b) *: cP (trun w1 (flatten tss1))) (cP (trun w1 (flatten tss1)) + b *: U).
  by rewrite scalerDl scale1r; apply: lemxD; [exact: lemx_refl|exact: lemxZ].
by move=> /(_ UB); rewrite /lemx opprB addrA [b *: U + _]addrC.
Qed.

Lemma psd_pm (M : 'M[R]_n) (i j : 'I_n) s : s ^+ 2 = 1 -> psd M -> 0 <= M i i + M j j + s * (M i j *+ 2).
Proof.
move=> s2 [sM /(_ (delta_mx i 0 + s *: delta_mx j 0))].
have E a b : ((delta_mx a 0 : 'cV[R]_n)^T *m M *m (delta_mx b 0 : 'cV[R]_n)) 0 0 = M a b.
  by rewrite trmx_delta -rowE -colE !mxE.
rewrite qf_add /qf !linearZ /= -!scalemxAl.
rewrite !(@mxE _ _ _ scalemx_key) !E mulrA -expr2 s2 mul1r.
by rewrite -[in M j i]sM mxE mulr2n mulrDr addrA.
Qed.
Lemma entry_bound (D E : 'M[R]_n) i j : lemx D E -> lemx (- D) E -> `|D i j| <= (E i i + E j j) / 2%:R.
Proof.
rewrite /lemx => H1 H2; have pm s : s ^+ 2 = 1 -> s * D i j <= (E i i + E j j) / 2%:R.
  move=> s2; have sN : (- s) ^+ 2 = 1 by rewrite sqrrN.
  have := addr_ge0 (psd_pm i j s2 H1) (psd_pm i j sN H2); rewrite !mxE opprK => h.
  rewrite ler_pdivl_mulr ?ltr0n //; rewrite -subr_ge0; rewrite -(@pmulr_rge0 _ 2%:R) ?ltr0n //.
  apply: le_trans h _; rewrite le_eqVlt; apply/orP; left; apply/eqP.
  have X1 : s * ((E i j - D i j) *+ 2) = s * E i j *+ 2 - s * D i j *+ 2 by rewrite mulrnAr mulrBr mulrnBl.
  have X2 : - s * ((E i j + D i j) *+ 2) = - (s * E i j *+ 2) - s * D i j *+ 2 by rewrite mulrnAr mulNr mulrDr mulNrn mulrnDl opprD.
  rewrite ?mxE !opprK X1 X2 mulr_natl mulr_natr !mulr2n; move: (s * E i j) (s * D i j) => a b; mxzmod.
rewrite ler_norml; apply/andP; split.
- by rewrite ler_oppl -mulN1r; apply: pm; rewrite sqrrN expr1n.
- by rewrite -[D i j]mul1r; apply: pm; rewrite expr1n.
Qed.

Lemma settles al w1 w2 tss1 tss2 k : 1 <= al -> lemx U (al *: L) -> inside w1 -> inside w2 -> cyc ts0 tss1 -> cyc ts0 tss2 -> (k <= size tss1)%N -> (k <= size tss2)%N ->
  forall i j, `|cP (trun w1 (flatten tss1)) i j - cP (trun w2 (flatten tss2)) i j| <= (al - 1) / (1 + th) ^+ (k * predictions ts0) * ((U i i + U j j) / 2%:R).
Proof.
move=> a1 LU2 I1 I2 C1 C2 k1 k2 i j.
have cut w tss : inside w -> cyc ts0 tss -> (k <= size tss)%N -> exists w' tss', [/\ inside w', cyc ts0 tss', size tss' = k & trun w (flatten tss) = trun w' (flatten tss')].
  move=> I C Hk; exists (trun w (flatten (take (size tss - k) tss))), (drop (size tss - k) tss).
  have [Ca Cb] : cyc ts0 (take (size tss - k) tss) /\ cyc ts0 (drop (size tss - k) tss) by apply/List.Forall_app; have := C; rewrite -{1}[tss](cat_take_drop (size tss - k)).
  split=> //; first by have [] := inside_cycles I Ca.
    by rewrite size_drop subKn.
  by rewrite -trun_cat -flatten_cat cat_take_drop.
have [v1 [s1 [J1 D1 S1 ->]]] := cut _ _ I1 C1 k1; have [v2 [s2 [J2 D2 S2 ->]]] := cut _ _ I2 C2 k2.
have h1 := same_len a1 LU2 J1 J2 D1 D2 (etrans S1 (esym S2)); have h2 := same_len a1 LU2 J2 J1 D2 D1 (etrans S2 (esym S1)).
rewrite S1 in h1; rewrite S2 in h2; rewrite -opprB in h1.
have := entry_bound i j h2 h1; rewrite !mxE => h; apply: le_trans h _.
by rewrite -mulrDr mulrA.
Qed.
End Levels.

Lemma same_mats w1 w2 : same_matrices w1 w2 -> mats w1 w2.
Proof.
move=> [EA [EQ [FC FO]]]; do 2 (split; first by []); split.
- by elim: FC => [|x y l1 l2 H _ IH]; constructor=> //; case: H => *; constructor.
- by elim: FO => [|x y l1 l2 H _ IH]; constructor=> //; case: H => *; constructor.
Qed.
Theorem steady (th : R) (w0 : tworld R n) (L U : 'M[R]_n) (ts0 : seq (top R n)) (al : R) : 0 <= th -> tw_good w0 ->
  List.Forall (@no_zero_factor R n) ts0 -> List.Forall (fun t => skeleton t <> None) ts0 ->
  pd L -> lemx L U -> 1 <= al -> lemx U (al *: L) -> lemx L (cov_after w0 ts0 L) -> lemx (cov_after w0 ts0 U) U ->
  ls_ops (start w0 L) ts0 -> noisy th (start w0 U) ts0 ->
  forall (w1 w2 : world R) (oss1 oss2 : seq (seq (op R))) (tss1 tss2 : seq (seq (top R n))) (k : nat),
  world_ok c n w1 -> world_ok c n w2 -> same_matrices w0 (abs w1) -> same_matrices w0 (abs w2) ->
  List.Forall2 (fun os ts => den w1 os ts) oss1 tss1 -> List.Forall2 (fun os ts => den w2 os ts) oss2 tss2 ->
  List.Forall (same_calls ts0) tss1 -> List.Forall (same_calls ts0) tss2 ->
  lemx L (wP w1) -> lemx (wP w1) U -> lemx L (wP w2) -> lemx (wP w2) U -> (k <= size oss1)%N -> (k <= size oss2)%N ->
  exists w1' w2' : world R, run c N n w1 (flatten oss1) = Ok w1' /\ run c N n w2 (flatten oss2) = Ok w2' /\
    lemx L (wP w1') /\ lemx (wP w1') U /\
    forall i j, `|wP w1' i j - wP w2' i j| <= (al - 1) / (1 + th) ^+ (k * predictions ts0) * ((U i i + U j j) / 2%:R).
Proof.
move=> t0 g0 Z K0 pL LU a1 LUa HL HU lsL noU w1 w2 oss1 oss2 tss1 tss2 k W1 W2 /same_mats M1 /same_mats M2 D1 D2 C1 C2 L1 U1 L2 U2 k1 k2.
have sz (oss : seq (seq (op R))) (tss : seq (seq (top R n))) (w : world R) : List.Forall2 (fun os ts => den w os ts) oss tss -> size oss = size tss by elim=> [|? ? ? ? _ _] //= ->.
have good (w : world R) : mats w0 (abs w) -> lemx L (wP w) -> tw_good (abs w).
  move=> M HLw; have [_ [pQ [gc go]]] := g0; have [_ [EQ [FC FO]]] := M.
  split; [exact/pd_psd/(pd_up pL)|split; [by rewrite -EQ|split]].
  - elim: FC gc => [|x y l1 l2 H _ IH] G; first exact: List.Forall_nil.
    have [Ga Gb] : ctl_good x /\ List.Forall (@ctl_good R n) l1 by inversion G.
    by apply: List.Forall_cons; [case: H Ga|exact: IH].
  - elim: FO go => [|x y l1 l2 H _ IH] G; first exact: List.Forall_nil.
    have [Ga Gb] : obs_good x /\ List.Forall (@obs_good R n) l1 by inversion G.
    by apply: List.Forall_cons; [case: H Ga|exact: IH].
have I1 : inside w0 L U (abs w1) by split=> //; exact: good.
have I2 : inside w0 L U (abs w2) by split=> //; exact: good.
have go (w : world R) oss tss : world_ok c n w -> tw_good (abs w) -> List.Forall2 (fun os ts => den w os ts) oss tss -> cyc ts0 tss ->
  exists w' : world R, run c N n w (flatten oss) = Ok w' /\ abs w' = trun (abs w) (flatten tss).
  move=> W g D C; have G := proj2 (cyc_good (abs w) (size tss) C Z); rewrite take_size in G.
  have [O _] := run_good g G; have := den_flat (size oss) D; rewrite take_size (sz _ _ _ D) take_size => Df.
  by have [w' [E [_ [_ [_ A]]]]] := run_refines W Df O; exists w'.
have [_ gw1 _ _] := I1; have [_ gw2 _ _] := I2.
have [w1' [R1 A1]] := go _ _ _ W1 gw1 D1 C1; have [w2' [R2 A2]] := go _ _ _ W2 gw2 D2 C2.
have [[_ _ lo hi] _ _] := inside_cycles t0 g0 Z K0 pL LU HL HU lsL noU I1 C1.
exists w1', w2'; split=> //; split=> //.
rewrite -[wP w1']/(cP (abs w1')) -[wP w2']/(cP (abs w2')) A1 A2; split=> //; split=> //.
apply: (settles t0 g0 Z K0 pL LU HL HU lsL noU a1 LUa I1 I2 C1 C2); [by rewrite -(sz _ _ _ D1)|by rewrite -(sz _ _ _ D2)].
Qed.
End Steady.
