(** * Consequences for single calls, over exact arithmetic *)
From Verif Require Import Spec Matrix Filter Extended SpecFilter SpecExact SpecHistory Exact Zmod Psd CholExact KMath FilterExact.
From mathcomp Require Import all_ssreflect all_algebra.
Set Implicit Arguments.
Unset Strict Implicit.
Unset Printing Implicit Defensive.
Import Order.TTheory GRing.Theory Num.Theory.
Local Open Scope ring_scope.

Section CallExact.
Variable R : rcfType.
Variables (c : cfg) (n m : nat).
Local Notation N := (@exact_num R).
Implicit Types (o : observation R) (f : kalman R).
Local Notation fx f := (mx n 1 (kf_x f)).
Local Notation fP f := (mx n n (kf_P f)).
Local Notation oH o := (mx m n (ob_H o)).
Local Notation oz o := (mx m 1 (ob_z o)).
Local Notation oR o := (mx m m (ob_R o)).

(** the facts about one correction, in the form used below *)
Lemma correct_call o f : (0 < n)%N -> (0 < m)%N -> ob_valid c n m o -> kf_valid c n f -> pd (t_S (oH o) (oR o) (fP f)) ->
  exists o' f', correct c N n m o f = Ok (o', f') /\
    fx f' = fx f + t_K (oH o) (oR o) (fP f) *m (oz o - oH o *m fx f) /\
    fP f' = Ppost (oH o) (oR o) (fP f) /\
    mx n m (ob_K o') = t_K (oH o) (oR o) (fP f) /\
    kf_est n f' = t_correct (oH o) (oR o) (oz o) (kf_est n f).
Proof.
move=> Hn Hm Vo Vf pS; have [o' [f' [E [_ [_ [_ [_ [_ [Es [_ [EK _]]]]]]]]]]] := correct_exact Hn Hm Vo Vf pS.
by exists o', f'; do !split=> //; case: Es.
Qed.

Lemma correct_decreases_call o f : (0 < n)%N -> (0 < m)%N -> ob_valid c n m o -> kf_valid c n f ->
  sym (fP f) -> pd (t_S (oH o) (oR o) (fP f)) ->
  exists o' f', correct c N n m o f = Ok (o', f') /\ lemx (fP f') (fP f) /\ forall i, fP f' i i <= fP f i i.
Proof.
move=> Hn Hm Vo Vf sP pS; have [o' [f' [E [_ [EP _]]]]] := correct_call Hn Hm Vo Vf pS.
have L := correct_decreases sP pS; exists o', f'; rewrite EP; split=> //; split=> // i.
have := psd_diag i L; by rewrite [X in 0 <= X]mxE [X in _ + X]mxE subr_ge0.
Qed.

Lemma correct_optimal_call o f : (0 < n)%N -> (0 < m)%N -> ob_valid c n m o -> kf_valid c n f ->
  sym (fP f) -> pd (t_S (oH o) (oR o) (fP f)) ->
  exists o' f', correct c N n m o f = Ok (o', f') /\
    fP f' = joseph (oH o) (oR o) (fP f) (mx n m (ob_K o')) /\
    (forall G, lemx (fP f') (joseph (oH o) (oR o) (fP f) G)) /\
    (forall G, joseph (oH o) (oR o) (fP f) G = fP f' -> G = mx n m (ob_K o')).
Proof.
move=> Hn Hm Vo Vf sP pS; have [o' [f' [E [_ [EP [EK _]]]]]] := correct_call Hn Hm Vo Vf pS.
exists o', f'; rewrite EP EK; split=> //; split; first by rewrite joseph_K.
split=> G; first exact: joseph_opt.
exact: joseph_opt_uniq.
Qed.

Lemma correct_info_call o f : (0 < n)%N -> (0 < m)%N -> ob_valid c n m o -> kf_valid c n f ->
  pd (fP f) -> pd (oR o) ->
  exists o' f', correct c N n m o f = Ok (o', f') /\ pd (fP f') /\
    invmx (fP f') = invmx (fP f) + (oH o)^T *m invmx (oR o) *m oH o /\
    invmx (fP f') *m fx f' = invmx (fP f) *m fx f + (oH o)^T *m invmx (oR o) *m oz o /\
    forall xi, xi != fx f' -> wls (oH o) (oR o) (oz o) (kf_est n f) (fx f') < wls (oH o) (oR o) (oz o) (kf_est n f) xi.
Proof.
move=> Hn Hm Vo Vf pP pR; have pS := S_pd (oH o) (pd_psd pP) pR.
have [o' [f' [E [_ [EP [_ Es]]]]]] := correct_call Hn Hm Vo Vf pS.
have Ex : fx f' = e_x (t_correct (oH o) (oR o) (oz o) (kf_est n f)) by rewrite -Es.
exists o', f'; rewrite EP; split=> //; split; first exact: Ppost_pd.
split; first exact: info_form.
split; first by rewrite Ex; apply: (@info_state R n m (oH o) (oR o) (oz o) (kf_est n f)).
by move=> xi; rewrite Ex => H; apply: wls_unique.
Qed.

Lemma correct_zero_call o f : (0 < n)%N -> (0 < m)%N -> ob_valid c n m o -> kf_valid c n f ->
  pd (t_S (oH o) (oR o) (fP f)) ->
  exists o' f', correct c N n m o f = Ok (o', f') /\
    (oz o = oH o *m fx f -> fx f' = fx f) /\
    oz o - oH o *m fx f' = oR o *m invmx (t_S (oH o) (oR o) (fP f)) *m (oz o - oH o *m fx f) /\
    (oR o = 0 -> oH o *m fx f' = oz o /\ (sym (fP f) -> oH o *m fP f' = 0)).
Proof.
move=> Hn Hm Vo Vf pS; have uS := pd_unit pS.
have [o' [f' [E [Ex [EP [_ Es]]]]]] := correct_call Hn Hm Vo Vf pS.
have Er : oz o - oH o *m fx f' = oR o *m invmx (t_S (oH o) (oR o) (fP f)) *m (oz o - oH o *m fx f).
  by have := residual (oz o) (s := kf_est n f) uS; rewrite -Es.
exists o', f'; split=> //; split; first by move=> Ez; rewrite Ex Ez subrr mulmx0 addr0.
split=> // R0; split.
  by move: Er; rewrite R0 !mul0mx => /eqP; rewrite subr_eq0 => /eqP <-.
move=> sP; rewrite EP H_Ppost //; last by rewrite R0 /sym trmx0.
by rewrite R0 !mul0mx.
Qed.

Lemma correct_HPH_call o f : (0 < n)%N -> (0 < m)%N -> ob_valid c n m o -> kf_valid c n f ->
  psd (fP f) -> pd (oR o) ->
  exists o' f', correct c N n m o f = Ok (o', f') /\ lemx (oH o *m fP f' *m (oH o)^T) (oR o).
Proof.
move=> Hn Hm Vo Vf pP pR; have pS := S_pd (oH o) pP pR.
have [o' [f' [E [_ [EP _]]]]] := correct_call Hn Hm Vo Vf pS.
exists o', f'; split=> //; rewrite /lemx EP HPH_le_R //; last by case: pR. 2: by case: pP.
by apply: psd_congr; apply: pd_psd; apply: pd_inv.
Qed.

Lemma correct_error_call o f xt v : (0 < n)%N -> (0 < m)%N -> ob_valid c n m o -> kf_valid c n f ->
  pd (t_S (oH o) (oR o) (fP f)) -> oz o = oH o *m xt + v ->
  exists o' f', correct c N n m o f = Ok (o', f') /\
    fx f' - xt = (1%:M - mx n m (ob_K o') *m oH o) *m (fx f - xt) + mx n m (ob_K o') *m v.
Proof.
move=> Hn Hm Vo Vf pS Ez; have [o' [f' [E [Ex [_ [EK _]]]]]] := correct_call Hn Hm Vo Vf pS.
exists o', f'; split=> //; rewrite Ex EK Ez.
exact: (@correct_error R n m (oH o) (oR o) (kf_est n f) xt v).
Qed.

(** states the measurement tells nothing about are left alone *)
Lemma correct_unseen_call o f i : (0 < n)%N -> (0 < m)%N -> ob_valid c n m o -> kf_valid c n f ->
  pd (t_S (oH o) (oR o) (fP f)) -> row i (fP f *m (oH o)^T) = 0 ->
  exists o' f', correct c N n m o f = Ok (o', f') /\ fx f' i 0 = fx f i 0 /\ row i (fP f') = row i (fP f) /\
    (sym (fP f) -> col i (fP f') = col i (fP f)).
Proof.
move=> Hn Hm Vo Vf pS Hi; have [o' [f' [E [Ex [EP _]]]]] := correct_call Hn Hm Vo Vf pS.
have K0 : row i (t_K (oH o) (oR o) (fP f)) = 0 by rewrite /t_K row_mul Hi mul0mx.
exists o', f'; split=> //; split.
  have : row i (fx f') = row i (fx f) by rewrite Ex linearD /= row_mul K0 mul0mx addr0.
  by move/matrixP/(_ 0 0); rewrite [LHS]mxE [RHS]mxE.
split; first by rewrite EP /Ppost linearB /= row_mul K0 mul0mx subr0.
move=> sP; have HP0 : col i (oH o *m fP f) = 0.
  by rewrite -[oH o *m fP f]trmxK trmx_mul sP -tr_row Hi trmx0.
have C (X : 'M[R]_(n, m)) : col i (X *m (oH o *m fP f)) = 0 by rewrite colE -mulmxA -colE HP0 mulmx0.
by rewrite EP /Ppost linearB /= C subr0.
Qed.

Lemma correct_certain_call o f : (0 < n)%N -> (0 < m)%N -> ob_valid c n m o -> kf_valid c n f ->
  pd (oR o) -> fP f = 0 ->
  exists o' f', correct c N n m o f = Ok (o', f') /\ fx f' = fx f /\ fP f' = 0 /\ mx n m (ob_K o') = 0.
Proof.
move=> Hn Hm Vo Vf pR P0; have pS : pd (t_S (oH o) (oR o) (fP f)).
  by apply: S_pd => //; rewrite P0; split=> [|v]; rewrite ?/sym ?trmx0 // /qf mulmx0 mul0mx mxE.
have [o' [f' [E [_ [_ [EK Es]]]]]] := correct_call Hn Hm Vo Vf pS.
have Ec := correct_certain (oH o) (oR o) (oz o) (fx f); move: Es; rewrite /kf_est P0 Ec => -[Ex EP].
by exists o', f'; rewrite EK /t_K P0 !mul0mx.
Qed.

(** measurement units *)
Lemma correct_units_call o1 o2 f (M : 'M[R]_m) : (0 < n)%N -> (0 < m)%N -> ob_valid c n m o1 -> ob_valid c n m o2 -> kf_valid c n f ->
  pd (t_S (oH o1) (oR o1) (fP f)) -> M \in unitmx ->
  oH o2 = M *m oH o1 -> oR o2 = M *m oR o1 *m M^T -> oz o2 = M *m oz o1 ->
  exists o1' f1 o2' f2, correct c N n m o1 f = Ok (o1', f1) /\ correct c N n m o2 f = Ok (o2', f2) /\
    kf_est n f1 = kf_est n f2.
Proof.
move=> Hn Hm V1 V2 Vf pS uM EH ER Ez.
have pS2 : pd (t_S (oH o2) (oR o2) (fP f)).
  have -> : t_S (oH o2) (oR o2) (fP f) = M *m t_S (oH o1) (oR o1) (fP f) *m M^T.
    by rewrite EH ER /t_S trmx_mul; mxzmod.
  exact: pd_congr.
have [o1' [f1 [E1 [_ [_ [_ Es1]]]]]] := correct_call Hn Hm V1 Vf pS.
have [o2' [f2 [E2 [_ [_ [_ Es2]]]]]] := correct_call Hn Hm V2 Vf pS2.
exists o1', f1, o2', f2; split=> //; split=> //; rewrite Es1 Es2 EH ER Ez.
by apply/esym/correct_units => //; apply: pd_unit.
Qed.

(** tuned prediction *)
Lemma predict_tuned_one_call f : (0 < n)%N -> kf_valid c n f ->
  exists f1 f2, predict_tuned c N n 1 f = Ok f1 /\ predict c N n f = Ok f2 /\ kf_est n f1 = kf_est n f2.
Proof.
move=> Hn Vf; have [f1 [E1 [_ [_ [_ S1]]]]] := predict_tuned_exact Hn (oner_neq0 R) Vf.
have [f2 [E2 [_ [_ [_ S2]]]]] := predict_exact Hn Vf.
by exists f1, f2; rewrite S1 S2 tuned_1.
Qed.
Lemma predict_tuned_mono_call f l1 l2 : (0 < n)%N -> kf_valid c n f -> psd (fP f) -> 0 < l1 -> l1 <= l2 ->
  exists f1 f2, predict_tuned c N n l1 f = Ok f1 /\ predict_tuned c N n l2 f = Ok f2 /\ fx f1 = fx f2 /\ lemx (fP f2) (fP f1).
Proof.
move=> Hn Vf pP H1 H12; have H2 : 0 < l2 by apply: lt_le_trans H12.
have [f1 [E1 [_ [_ [_ [X1 S1]]]]]] := predict_tuned_exact Hn (lt0r_neq0 H1) Vf.
have [f2 [E2 [_ [_ [_ [X2 S2]]]]]] := predict_tuned_exact Hn (lt0r_neq0 H2) Vf.
exists f1, f2; do 3 split=> //; first by rewrite X1 X2.
rewrite S1 S2; exact: (@tuned_mono R n l1 l2 _ _ (kf_est n f) H1 H12 pP).
Qed.
End CallExact.

(** ** two observations, and the stacked one *)
Section StackCall.
Variable R : rcfType.
Variables (c : cfg) (n m1 m2 : nat).
Local Notation N := (@exact_num R).

Lemma correct_stacked_call (o1 o2 o12 : observation R) (f : kalman R) :
  (0 < n)%N -> (0 < m1)%N -> (0 < m2)%N -> ob_valid c n m1 o1 -> ob_valid c n m2 o2 -> ob_valid c n (m1 + m2) o12 -> kf_valid c n f ->
  psd (mx n n (kf_P f)) -> pd (mx m1 m1 (ob_R o1)) -> pd (mx m2 m2 (ob_R o2)) ->
  mx (m1 + m2) n (ob_H o12) = col_mx (mx m1 n (ob_H o1)) (mx m2 n (ob_H o2)) ->
  mx (m1 + m2) 1 (ob_z o12) = col_mx (mx m1 1 (ob_z o1)) (mx m2 1 (ob_z o2)) ->
  mx (m1 + m2) (m1 + m2) (ob_R o12) = block_mx (mx m1 m1 (ob_R o1)) 0 0 (mx m2 m2 (ob_R o2)) ->
  exists o1a f1 o2a f12 o2b f2 o1b f21 o12' fs,
    (correct c N n m1 o1 f = Ok (o1a, f1) /\ correct c N n m2 o2 f1 = Ok (o2a, f12)) /\
    (correct c N n m2 o2 f = Ok (o2b, f2) /\ correct c N n m1 o1 f2 = Ok (o1b, f21)) /\
    correct c N n (m1 + m2) o12 f = Ok (o12', fs) /\
    kf_est n f12 = kf_est n fs /\ kf_est n f21 = kf_est n fs.
Proof.
move=> Hn H1 H2 V1 V2 V12 Vf pP p1 p2 EH Ez ER.
have H12 : (0 < m1 + m2)%N by rewrite addn_gt0 H1.
have pS1 := S_pd (mx m1 n (ob_H o1)) pP p1; have pS2 := S_pd (mx m2 n (ob_H o2)) pP p2.
have [o1a [f1 [E1 [_ [_ [Vf1 [_ [_ [Es1 _]]]]]]]]] := correct_exact Hn H1 V1 Vf pS1.
have [o2b [f2 [E2 [_ [_ [Vf2 [_ [_ [Es2 _]]]]]]]]] := correct_exact Hn H2 V2 Vf pS2.
have pP1 : psd (mx n n (kf_P f1)) by case: Es1 => _ ->; apply: Ppost_psd => //; apply: pd_psd.
have pP2 : psd (mx n n (kf_P f2)) by case: Es2 => _ ->; apply: Ppost_psd => //; apply: pd_psd.
have [o2a [f12 [E12 [_ [_ [_ [_ [_ [Es12 _]]]]]]]]] := correct_exact Hn H2 V2 Vf1 (S_pd _ pP1 p2).
have [o1b [f21 [E21 [_ [_ [_ [_ [_ [Es21 _]]]]]]]]] := correct_exact Hn H1 V1 Vf2 (S_pd _ pP2 p1).
have pR : pd (mx (m1 + m2) (m1 + m2) (ob_R o12)) by rewrite ER; apply: stack_R_pd.
have [o12' [fs [Es [_ [_ [_ [_ [_ [Ess _]]]]]]]]] := correct_exact Hn H12 V12 Vf (S_pd _ pP pR).
exists o1a, f1, o2a, f12, o2b, f2, o1b, f21, o12', fs; split=> //; split=> //; split=> //.
rewrite Es12 Es21 Ess Es1 Es2 EH ER Ez; split; [exact: stacked_12|exact: stacked_21].
Qed.
End StackCall.
