(** * Consequences for whole programs, over exact arithmetic *)
From Verif Require Import Spec Matrix Filter Extended SpecFilter History SpecGen SpecExact SpecHistory SpecWorld Zmod Psd KMath HistGen HistExact WorldMath.
From mathcomp Require Import all_ssreflect all_algebra.
From Coq Require Import Permutation.
Set Implicit Arguments.
Unset Strict Implicit.
Unset Printing Implicit Defensive.
Import Order.TTheory GRing.Theory Num.Theory.
Local Open Scope ring_scope.

Section HistMain.
Variable R : rcfType.
Variables (c : cfg) (n : nat).
Local Notation N := (@exact_num R).
Implicit Types (w : world R) (os : seq (op R)) (ts : seq (top R n)).
Local Notation abs := (world_abs n).
Local Notation den w os ts := (List.Forall2 (@denotes R c n w) os ts).
Local Notation wx w := (mx n 1 (kf_x (w_kf w))).
Local Notation wP w := (mx n n (kf_P (w_kf w))).

Lemma run_psd w os ts : world_ok c n w -> den w os ts -> tw_good (abs w) -> ops_good (abs w) ts ->
  exists w', run c N n w os = Ok w' /\ world_ok c n w' /\ psd (wP w').
Proof.
move=> Hw Hd G Go; have [O1 G1] := run_good G Go; have [w' [E [W [_ [_ A]]]]] := run_refines Hw Hd O1.
by exists w'; split=> //; split=> //; move: G1; rewrite -A => -[].
Qed.

Lemma run_mono w1 w2 os1 os2 ts1 ts2 : world_ok c n w1 -> world_ok c n w2 -> den w1 os1 ts1 -> den w2 os2 ts2 ->
  tw_good (abs w1) -> tw_good (abs w2) -> ops_good (abs w1) ts1 -> ops_good (abs w2) ts2 ->
  tw_le (abs w1) (abs w2) -> tops_le (abs w1) ts1 ts2 ->
  exists w1' w2', run c N n w1 os1 = Ok w1' /\ run c N n w2 os2 = Ok w2' /\ lemx (wP w1') (wP w2').
Proof.
move=> W1 W2 D1 D2 G1 G2 O1 O2 L Lo.
have [K1 _] := run_good G1 O1; have [K2 _] := run_good G2 O2.
have [w1' [E1 [_ [_ [_ A1]]]]] := run_refines W1 D1 K1; have [w2' [E2 [_ [_ [_ A2]]]]] := run_refines W2 D2 K2.
by exists w1', w2'; split=> //; split=> //; have := run_le G1 G2 O1 O2 L Lo; rewrite -A1 -A2 => -[_ [_ []]].
Qed.

Lemma run_units T w1 w2 os1 os2 ts : T \in unitmx -> world_ok c n w1 -> world_ok c n w2 ->
  den w1 os1 ts -> den w2 os2 (List.map (op_coord T) ts) -> ops_ok (abs w1) ts -> abs w2 = tw_coord T (abs w1) ->
  exists w1' w2', run c N n w1 os1 = Ok w1' /\ run c N n w2 os2 = Ok w2' /\
    wx w2' = T *m wx w1' /\ wP w2' = T *m wP w1' *m T^T.
Proof.
move=> uT W1 W2 D1 D2 O1 EA; have O2 : ops_ok (abs w2) (List.map (op_coord T) ts) by rewrite EA; apply: ops_ok_coord.
have [w1' [E1 [_ [_ [_ A1]]]]] := run_refines W1 D1 O1; have [w2' [E2 [_ [_ [_ A2]]]]] := run_refines W2 D2 O2.
exists w1', w2'; split=> //; split=> //; move: A2; rewrite EA run_coord // -A1 => A2.
have : tw_s (abs w2') = est_coord T (tw_s (abs w1')) by rewrite A2.
by case.
Qed.

Lemma run_scaled a w1 w2 os1 os2 ts : 0 < a -> world_ok c n w1 -> world_ok c n w2 ->
  den w1 os1 ts -> den w2 os2 (List.map (op_scale a) ts) -> ops_ok (abs w1) ts -> abs w2 = tw_scale a (abs w1) ->
  exists w1' w2', run c N n w1 os1 = Ok w1' /\ run c N n w2 os2 = Ok w2' /\
    wx w2' = wx w1' /\ wP w2' = a *: wP w1'.
Proof.
move=> Ha W1 W2 D1 D2 O1 EA; have [O2 Er] := run_scale Ha O1; rewrite -EA in O2 Er.
have [w1' [E1 [_ [_ [_ A1]]]]] := run_refines W1 D1 O1; have [w2' [E2 [_ [_ [_ A2]]]]] := run_refines W2 D2 O2.
exists w1', w2'; split=> //; split=> //; move: A2; rewrite Er -A1 => A2.
have : tw_s (abs w2') = tw_s (tw_scale a (abs w1')) by rewrite A2.
by case.
Qed.

Lemma run_superposition a b w1 w2 w3 os1 os2 os3 ts1 ts2 ts3 :
  world_ok c n w1 -> world_ok c n w2 -> world_ok c n w3 ->
  den w1 os1 ts1 -> den w2 os2 ts2 -> den w3 os3 ts3 ->
  ops_ok (abs w1) ts1 -> ops_ok (abs w2) ts2 -> ops_ok (abs w3) ts3 ->
  tw_lin a b (abs w1) (abs w2) (abs w3) -> tops_lin a b (abs w3) ts1 ts2 ts3 ->
  exists w1' w2' w3', run c N n w1 os1 = Ok w1' /\ run c N n w2 os2 = Ok w2' /\ run c N n w3 os3 = Ok w3' /\
    wx w3' = a *: wx w1' + b *: wx w2' /\ wP w1' = wP w3' /\ wP w2' = wP w3'.
Proof.
move=> W1 W2 W3 D1 D2 D3 O1 O2 O3 L Lo.
have [w1' [E1 [_ [_ [_ A1]]]]] := run_refines W1 D1 O1; have [w2' [E2 [_ [_ [_ A2]]]]] := run_refines W2 D2 O2.
have [w3' [E3 [_ [_ [_ A3]]]]] := run_refines W3 D3 O3.
exists w1', w2', w3'; do 3 split=> //; have := run_lin L Lo; rewrite -A1 -A2 -A3 /tw_lin /=; tauto.
Qed.

Lemma run_error w os xt (tvs : seq (top R n * 'cV[R]_n)) : world_ok c n w -> den w os (map fst tvs) -> ops_ok (abs w) (map fst tvs) ->
  exists w', run c N n w os = Ok w' /\ wx w' - truth_run (abs w) xt tvs = err_run (abs w) xt tvs (wx w - xt).
Proof.
move=> W D O; have [w' [E [_ [_ [_ A]]]]] := run_refines W D O; exists w'; split=> //.
by have := run_err (abs w) xt tvs; rewrite -A.
Qed.

Lemma run_exact_stays w os (tvs : seq (top R n * 'cV[R]_n)) : world_ok c n w -> den w os (map fst tvs) -> ops_ok (abs w) (map fst tvs) ->
  noise_free (abs w) (wx w) tvs ->
  exists w', run c N n w os = Ok w' /\ wx w' = truth_run (abs w) (wx w) tvs.
Proof.
move=> W D O F; have [w' [E [_ [_ [_ A]]]]] := run_refines W D O; exists w'; split=> //.
by have := run_noise_free (w := abs w) F; rewrite -A.
Qed.

Lemma den_corrects w js : den w (List.map (@OCorrect R) js) (List.map TCorrect js).
Proof. by elim: js => [|j js IH]; constructor. Qed.
Lemma good_corrects (v : tworld R n) js : ops_good v (List.map TCorrect js).
Proof. by elim: js v => [|j js IH] v //=. Qed.
Lemma run_perm w (js js' : seq nat) : world_ok c n w -> tw_good (abs w) -> Permutation js js' ->
  exists w1 w2, run c N n w (List.map (@OCorrect R) js) = Ok w1 /\ run c N n w (List.map (@OCorrect R) js') = Ok w2 /\
    wx w1 = wx w2 /\ wP w1 = wP w2.
Proof.
move=> W G H.
have [K1 _] := run_good G (good_corrects _ js); have [K2 _] := run_good G (good_corrects _ js').
have [w1 [E1 [_ [_ [_ A1]]]]] := run_refines W (den_corrects _ js) K1.
have [w2 [E2 [_ [_ [_ A2]]]]] := run_refines W (den_corrects _ js') K2.
exists w1, w2; split=> //; split=> //; have E := corrects_perm H G.
have : tw_s (abs w1) = tw_s (abs w2) by rewrite A1 A2 E.
by case.
Qed.

Lemma run_predicts w k : world_ok c n w ->
  let A := mx n n (kf_A (w_kf w)) in
  exists w', run c N n w (List.repeat (@OPredict R) k) = Ok w' /\
    wx w' = mxpow A k *m wx w /\
    wP w' = mxpow A k *m wP w *m (mxpow A k)^T + \sum_(i < k) mxpow A i *m mx n n (kf_Q (w_kf w)) *m (mxpow A i)^T.
Proof.
move=> W A; have D : den w (List.repeat (@OPredict R) k) (nseq k TPredict) by elim: k => [|k IH]; constructor.
have O v : ops_ok v (nseq k (@TPredict R n)) by elim: k v {D} => [|k IH] v //=.
have [w' [E [_ [_ [_ Aw]]]]] := run_refines W D (O _); exists w'; split=> //.
have : tw_s (abs w') = tw_s (trun (abs w) (nseq k TPredict)) by rewrite Aw.
rewrite predicts predict_iter; by case.
Qed.

(** k corrections with the same observation *)
Lemma run_info w k m b : world_ok c n w -> tw_good (abs w) -> nth_error (w_ob w) 0 = Some (m, b) -> pd (wP w) ->
  let H := mx m n (ob_H b) in let Rm := mx m m (ob_R b) in
  exists w', run c N n w (List.repeat (@OCorrect R 0) k) = Ok w' /\ pd (wP w') /\
    invmx (wP w') = invmx (wP w) + (H^T *m invmx Rm *m H) *+ k /\
    invmx (wP w') *m wx w' = invmx (wP w) *m wx w + (H^T *m invmx Rm *m mx m 1 (ob_z b)) *+ k.
Proof.
move=> W G Eb pP H Rm.
have Er : List.repeat (@OCorrect R 0) k = List.map (@OCorrect R) (List.repeat 0%N k) by elim: k => //= k ->.
rewrite Er.
have [K1 _] := run_good G (good_corrects _ (List.repeat 0%N k)).
have [w' [E [_ [_ [_ Aw]]]]] := run_refines W (den_corrects _ (List.repeat 0%N k)) K1; exists w'; split=> //.
have [_ [_ [_ Go]]] := G.
have Ea : nth_error (tw_ob (abs w)) 0 = Some (TObs H (mx m 1 (ob_z b)) Rm) by rewrite [tw_ob _]/= nth_mapo Eb.
have [_ pR] := Fnth Go Ea.
have : tw_s (abs w') = tw_s (trun (abs w) (List.map TCorrect (List.repeat 0%N k))) by rewrite Aw.
clear -Ea pP pR.
suff L : forall v : tworld R n, nth_error (tw_ob v) 0 = Some (TObs H (mx m 1 (ob_z b)) Rm) -> pd (e_P (tw_s v)) ->
   let s := tw_s (trun v (List.map TCorrect (List.repeat 0%N k))) in
   pd (e_P s) /\ invmx (e_P s) = invmx (e_P (tw_s v)) + (H^T *m invmx Rm *m H) *+ k /\
   invmx (e_P s) *m e_x s = invmx (e_P (tw_s v)) *m e_x (tw_s v) + (H^T *m invmx Rm *m mx m 1 (ob_z b)) *+ k.
  by have /= := L (abs w) Ea pP; case: (tw_s (trun _ _)) => x P /= LL [-> ->].
elim: k => [|k IH] v Ev pv; first by rewrite /= !addr0.
have Es : tstep v (TCorrect 0) = tw_est v (t_correct H Rm (mx m 1 (ob_z b)) (tw_s v)) by rewrite /tstep Ev.
rewrite -[trun v _]/(trun (tstep v (TCorrect 0)) (List.map TCorrect (List.repeat 0%N k))) Es.
have [|p1 [E1 E2]] := IH (tw_est v (t_correct H Rm (mx m 1 (ob_z b)) (tw_s v))) Ev; first exact: Ppost_pd.
move=> s; split=> //; split.
  by rewrite E1 [e_P (tw_s _)]/= -/(Ppost H Rm _) info_form // mulrS addrA.
by rewrite E2 [tw_s (tw_est _ _)]/= info_state // mulrS addrA.
Qed.

End HistMain.
