(** * Choice of the origin (C92); repeated corrections (C93) *)
From Verif Require Import Spec Matrix Filter Extended SpecFilter History SpecGen SpecExact SpecHistory SpecWorld SpecShift Zmod Psd KMath HistGen FilterExact HistExact WorldMath.
From Verif Require Import ExampleData Represent ExactExamples.
From mathcomp Require Import all_ssreflect all_algebra.
Set Implicit Arguments.
Unset Strict Implicit.
Unset Printing Implicit Defensive.
Import Order.TTheory GRing.Theory Num.Theory.
Local Open Scope ring_scope.

Section ShiftMath.
Variable R : rcfType.
Section World.
Variable n : nat.
Implicit Types (w : tworld R n) (t : top R n).

Section Shift.
Variables (s : 'cV[R]_n) (d : nat -> forall m, 'cV[R]_m).
Local Notation offs := (@offs R n d).
Lemma nth_offs k l i : nth_error (offs k l) i = match nth_error l i with Some o => Some (obs_off (d (k + i)%N) o) | None => None end.
Proof. by elim: l k i => [|o l IH] k [|i] //=; rewrite ?addn0 // IH addSnnS. Qed.
Lemma alter_offs g h k l i : (forall o, g (obs_off (d (k + i)%N) o) = obs_off (d (k + i)%N) (h o)) -> alter g i (offs k l) = offs k (alter h i l).
Proof.
by elim: l k i => [|o l IH] k [|i] //= H; [rewrite addn0 in H; rewrite H|rewrite IH // => v; rewrite addSnnS H].
Qed.
Lemma shiftK (x : 'cV[R]_n) : x + s - s = x. Proof. by rewrite addrK. Qed.
Lemma step_shift w t : tstep (tw_shift s d w) (op_shift s d w t) = tw_shift s d (tstep w t).
Proof.
case: t => //=; rewrite /tw_shift /tw_est /=.
- by rewrite shiftK.
- by move=> lam; rewrite shiftK.
- by move=> F; rewrite shiftK.
- by move=> lam F; rewrite shiftK.
- move=> i; congr TW; case: (nth_error _ i) => [[m B u Qc]|] //=; rewrite /t_control /=; congr Est; exact: addrAC.
- move=> j; congr TW; rewrite nth_offs add0n; case: (nth_error _ j) => [[m H z Rm]|] //=.
  rewrite /t_correct /t_update /= shiftK conform_mx_id; congr Est; rewrite addrAC; congr (_ + _ + _); congr (_ *m _); mxzmod.
- move=> j F; congr TW; rewrite nth_offs add0n; case: (nth_error _ j) => [[m H z Rm]|] //=.
  rewrite /t_update /= shiftK; congr Est; rewrite addrAC; congr (_ + _ + _); congr (_ *m _); mxzmod.
- by move=> j M; congr TW; apply: alter_offs => -[].
- by move=> j M; congr TW; apply: alter_offs => -[m H z Rm] /=; rewrite add0n.
- by move=> j M; congr TW; apply: alter_offs => -[].
Qed.
Lemma op_ok_shift w t : op_ok w t -> op_ok (tw_shift s d w) (op_shift s d w t).
Proof. by case: t => //= j; [|move=> F]; rewrite nth_offs; case: (nth_error _ j) => [[m H z Rm]|]. Qed.
Lemma run_shift w ts : ops_ok w ts -> ops_ok (tw_shift s d w) (ops_shift s d w ts) /\ trun (tw_shift s d w) (ops_shift s d w ts) = tw_shift s d (trun w ts).
Proof.
elim: ts w => [|t ts IH] w //= [Ho Hs]; rewrite step_shift; have [I1 I2] := IH _ Hs.
by split=> //; split=> //; apply: op_ok_shift.
Qed.
End Shift.

(** ** repeated corrections *)
Lemma nat1 k : k%:R + 1 = k.+1%:R :> R. Proof. by rewrite mulrSr. Qed.
Lemma HPH_Ppost m (H : 'M[R]_(m, n)) Rm P : H *m Ppost H Rm P *m H^T = Ppost (1%:M : 'M[R]_m) Rm (H *m P *m H^T).
Proof.
rewrite /Ppost /t_K /t_S trmx1 !mulmx1 !mul1mx mulmxBr mulmxBl; congr (_ - _).
by rewrite !mulmxA.
Qed.
Lemma joseph1 m (Rm G : 'M[R]_m) a : joseph (1%:M : 'M[R]_m) Rm G (a *: 1%:M) = ((1 - a) ^+ 2) *: G + (a ^+ 2) *: Rm.
Proof.
rewrite /joseph mulmx1; have -> : 1%:M - a *: 1%:M = (1 - a) *: (1%:M : 'M[R]_m) by rewrite scalerBl scale1r.
have E b (M : 'M[R]_m) : (b *: 1%:M) *m M *m (b *: 1%:M)^T = (b ^+ 2) *: M.
  by rewrite linearZ /= trmx1 -!scalemxAl -scalemxAr mul1mx mulmx1 scalerA expr2.
by rewrite !E.
Qed.
Lemma HPH_repeat m (H : 'M[R]_(m, n)) Rm P k : psd P -> pd Rm -> lemx (k%:R *: (H *m P *m H^T)) Rm ->
  lemx (k.+1%:R *: (H *m Ppost H Rm P *m H^T)) Rm.
Proof.
move=> pP pR Hk; rewrite HPH_Ppost; set G := _ *m _ *m _.
have pG : psd G by exact: psd_congr.
have pS : pd (t_S (1%:M : 'M[R]_m) Rm G) by apply: S_pd.
set K := k.+1%:R : R; have K0 : 0 < K by rewrite ltr0n.
have := joseph_opt (K^-1 *: 1%:M) pG.1 pS; rewrite joseph1 => Hj.
apply: lemx_trans (lemxZ (ltW K0) Hj) _.
have EK : 1 - K^-1 = k%:R * K^-1.
  by rewrite -[X in X - _](mulfV (lt0r_neq0 K0)) -{2}[K^-1]mul1r -mulrBl /K -nat1 addrK.
rewrite scalerDr !scalerA EK.
have -> : K * (k%:R * K^-1) ^+ 2 = (k%:R * K^-1) * k%:R.
  by rewrite expr2 mulrCA; congr (_ * _); rewrite mulrCA mulfV ?mulr1 // lt0r_neq0.
have -> : K * K^-1 ^+ 2 = K^-1 by rewrite expr2 mulrA mulfV ?mul1r // lt0r_neq0.
have -> : (k%:R * K^-1 * k%:R) *: G = (k%:R * K^-1) *: (k%:R *: G) by rewrite scalerA.
apply: lemx_trans (lemxD (lemxZ _ Hk) (lemx_refl _)) _; first by rewrite mulr_ge0 ?ler0n ?invr_ge0 ?ltW.
rewrite -scalerDl -[X in _ + X]mul1r -mulrDl nat1 -/K mulfV ?lt0r_neq0 // scale1r; exact: lemx_refl.
Qed.

Definition seen (k : nat) (P : 'M[R]_n) (o : tobs R n) : Prop := let: TObs m H z Rm := o in lemx (k%:R *: (H *m P *m H^T)) Rm.
Lemma alter_z (v : forall m, 'cV[R]_m) (l : seq (tobs R n)) i j o o' : nth_error l j = Some o ->
  nth_error (alter (fun o => let: TObs m H z Rm := o in TObs H (v m) Rm) i l) j = Some o' ->
  exists z' : forall m, 'cV[R]_m, o' = (let: TObs m H z Rm := o in TObs H (z' m) Rm).
Proof.
elim: l i j => [|b l IH] [|i] [|j] //=.
- by move=> [->] [<-]; case: o {IH} => m H z Rm; exists v.
- by move=> -> [<-]; exists (fun m => let: TObs m' H z Rm := o in conform_mx 0 z); case: o {IH} => m H z Rm; rewrite conform_mx_id.
- by move=> [->] [<-]; exists (fun m => let: TObs m' H z Rm := o in conform_mx 0 z); case: o {IH} => m H z Rm; rewrite conform_mx_id.
- exact: IH.
Qed.
Lemma seen_step w t j k o o' : tw_good w -> measuring t -> nth_error (tw_ob w) j = Some o -> seen k (e_P (tw_s w)) o ->
  nth_error (tw_ob (tstep w t)) j = Some o' -> seen (k + uses j t) (e_P (tw_s (tstep w t))) o'.
Proof.
move=> [pP [_ [_ go]]] + Ej Hk.
have dec i b : nth_error (tw_ob w) i = Some b -> lemx (e_P (do_correct b (tw_s w))) (e_P (tw_s w)).
  move=> Ei; have := Fnth go Ei; case: b Ei => m H z Rm Ei [_ pR]; rewrite t_correct_P; apply: correct_decreases; [exact: pP.1|exact: S_pd].
have less P' : lemx P' (e_P (tw_s w)) -> seen k P' o.
  case: o Ej Hk => m H z Rm Ej Hk Hle; apply: lemx_trans Hk; apply: lemxZ; first exact: ler0n.
  exact: lemx_congr.
have again b F : nth_error (tw_ob w) j = Some b -> seen k.+1 (e_P (do_correct_nl F b (tw_s w))) b.
  rewrite nl_P => Eb; move: Hk; have := Fnth go Eb; have <- : b = o by rewrite Eb in Ej; case: Ej.
  by case: b Eb => m H z Rm Eb [_ pR] Hk; rewrite t_correct_P; exact: HPH_repeat.
case: t => //=.
- move=> i _; rewrite Ej => -[<-]; case: (altP (i =P j)) => [->|_]; rewrite ?addn1 ?addn0.
    by rewrite Ej -(nl_P (fun m x => 0)); exact: again.
  by case Ei: (nth_error _ i) => [b|] //; apply: less; exact: dec Ei.
- move=> i F _; rewrite Ej => -[<-]; case: (altP (i =P j)) => [->|_]; rewrite ?addn1 ?addn0.
    by rewrite Ej; exact: again.
  by case Ei: (nth_error _ i) => [b|] //; rewrite nl_P; apply: less; exact: dec Ei.
- by move=> v _; rewrite addn0 Ej => -[<-].
- move=> i v _; rewrite addn0 => E'.
  suff [z' ->] : exists z', o' = (let: TObs m H z Rm := o in TObs H (z' m) Rm).
    by case: o Ej Hk less again {E'}.
  exact: alter_z Ej E'.
Qed.
Lemma measuring_good w t : measuring t -> op_good w t.
Proof. by case: t. Qed.
Lemma nth_kept w t j o : measuring t -> nth_error (tw_ob w) j = Some o -> exists o', nth_error (tw_ob (tstep w t)) j = Some o'.
Proof.
case: t => //= [i|i F|v|i v] _ E; try by exists o.
by elim: (tw_ob w) i j E => [|b l IH] [|i] [|j] //=; try (by eauto); exact: IH.
Qed.
Lemma run_seen w ts j k o : tw_good w -> all (@measuring R n) ts -> nth_error (tw_ob w) j = Some o -> seen k (e_P (tw_s w)) o ->
  ops_ok w ts /\ exists o', nth_error (tw_ob (trun w ts)) j = Some o' /\ seen (k + count (uses j) ts) (e_P (tw_s (trun w ts))) o'.
Proof.
elim: ts w k o => [|t ts IH] w k o G /=; first by move=> _ Ej Hk; split=> //; exists o; rewrite addn0.
move=> /andP [M Ms] Ej Hk; have [O G'] := step_good G (measuring_good w M).
have [o' Eo] := nth_kept M Ej.
have [I1 [o'' [E2 S2]]] := IH _ _ _ G' Ms Eo (seen_step G M Ej Hk Eo).
by split=> //; exists o''; split=> //; rewrite addnA.
Qed.
End World.

(** ** programs *)
Variables (c : cfg) (n : nat).
Local Notation N := (@exact_num R).
Local Notation abs := (world_abs n).
Local Notation den w os ts := (List.Forall2 (@denotes R c n w) os ts).
Local Notation wx w := (mx n 1 (kf_x (w_kf w))).
Local Notation wP w := (mx n n (kf_P (w_kf w))).
Theorem run_origin (s : 'cV[R]_n) (d : nat -> forall m, 'cV[R]_m) w1 w2 os1 os2 ts : world_ok c n w1 -> world_ok c n w2 ->
  den w1 os1 ts -> den w2 os2 (ops_shift s d (abs w1) ts) -> ops_ok (abs w1) ts -> abs w2 = tw_shift s d (abs w1) ->
  exists w1' w2', run c N n w1 os1 = Ok w1' /\ run c N n w2 os2 = Ok w2' /\ wx w2' = wx w1' + s /\ wP w2' = wP w1'.
Proof.
move=> W1 W2 D1 D2 O1 EA; have [O2 E] := run_shift s d O1; rewrite -EA in O2 E.
have [w1' [E1 [_ [_ [_ A1]]]]] := run_refines W1 D1 O1; have [w2' [E2 [_ [_ [_ A2]]]]] := run_refines W2 D2 O2.
exists w1', w2'; split=> //; split=> //.
have : tw_s (abs w2') = tw_s (tw_shift s d (abs w1')) by rewrite A2 E A1.
by case.
Qed.
Theorem run_repeated w os ts j m b : world_ok c n w -> tw_good (abs w) -> den w os ts -> all (@measuring R n) ts ->
  nth_error (w_ob w) j = Some (m, b) ->
  exists w', run c N n w os = Ok w' /\ lemx ((count (uses j) ts)%:R *: (mx m n (ob_H b) *m wP w' *m (mx m n (ob_H b))^T)) (mx m m (ob_R b)).
Proof.
move=> W G D Ms Ej.
have Ea : nth_error (tw_ob (abs w)) j = Some (TObs (mx m n (ob_H b)) (mx m 1 (ob_z b)) (mx m m (ob_R b))) by rewrite /= nth_mapo Ej.
have S0 : seen 0 (e_P (tw_s (abs w))) (TObs (mx m n (ob_H b)) (mx m 1 (ob_z b)) (mx m m (ob_R b))).
  rewrite /seen scale0r /lemx subr0; have [_ [_ [_ go]]] := G; have [_ pR] := Fnth go Ea; exact: pd_psd.
have [O [o' [Eo S']]] := run_seen G Ms Ea S0.
have [w' [E [_ [_ [_ A]]]]] := run_refines W D O; exists w'; split=> //.
have K : exists z', o' = TObs (mx m n (ob_H b)) z' (mx m m (ob_R b)).
  move: {W G D O E A S0 S'} (abs w) Ea Eo; elim: ts Ms (mx m 1 (ob_z b)) => [|t ts IH] /=.
    by move=> _ z v -> [<-]; exists z.
  move=> /andP [M Ms] z v E1; suff [z2 E2] : exists z2, nth_error (tw_ob (tstep v t)) j = Some (TObs (mx m n (ob_H b)) z2 (mx m m (ob_R b))) by exact: IH E2.
  case: t M => //= [i|i F|x|i x] _; try by exists z.
  have [o2 E2] : exists o2, nth_error (alter (fun o => let: TObs m H z Rm := o in TObs H (x m) Rm) i (tw_ob v)) j = Some o2.
    by have [o2 E2] := @nth_kept n v (TSetZ i x) j _ erefl E1; exists o2.
  by have [z2 E3] := alter_z E1 E2; rewrite E2 E3; eexists; reflexivity.
case: K => z' Ez; move: S'; rewrite Ez add0n /seen; by rewrite -A.
Qed.
End ShiftMath.
