(** * Repeating a cycle of calls *)
From Verif Require Import Spec Matrix Filter Extended SpecFilter History SpecGen SpecExact SpecHistory SpecWorld SpecCycle Zmod Psd KMath HistGen FilterExact HistExact WorldMath HistMain.
From Verif Require Import ExampleData Represent ExactExamples SpecProb ProbMath.
From mathcomp Require Import all_ssreflect all_algebra.
Set Implicit Arguments.
Unset Strict Implicit.
Unset Printing Implicit Defensive.
Import Order.TTheory GRing.Theory Num.Theory.
Local Open Scope ring_scope.

Section Cycle.
Variable R : rcfType.
Variables (c : cfg) (n : nat).
Local Notation N := (@exact_num R).
Local Notation abs := (world_abs n).
Local Notation den w os ts := (List.Forall2 (@denotes R c n w) os ts).
Local Notation wP w := (mx n n (kf_P (w_kf w))).
Implicit Types (w : tworld R n) (t : top R n) (ts : seq (top R n)).

Lemma skel_le w t1 t2 : skeleton t1 <> None -> skeleton t1 = skeleton t2 -> top_le w t1 t2.
Proof. by case: t1; case: t2 => //=; try (by move=> *; congruence); move=> *; congruence. Qed.

Lemma same_le w ts1 ts2 : same_calls ts1 ts2 -> tops_le w ts1 ts2.
Proof. by move=> H; elim: H w => [|t1 t2 l1 l2 [H1 H2] _ IH] w //=; split; [apply: skel_le|apply: IH]. Qed.

Lemma same_sym ts1 ts2 : same_calls ts1 ts2 -> same_calls ts2 ts1.
Proof. by elim=> [|t1 t2 l1 l2 [H1 H2] _ IH]; constructor=> //; rewrite -H2. Qed.
Lemma same_trans ts1 ts2 ts3 : same_calls ts1 ts2 -> same_calls ts2 ts3 -> same_calls ts1 ts3.
Proof.
move=> H; elim: H ts3 => [|t1 t2 l1 l2 [H1 H2] _ IH] ts3 H3; first by inversion H3; constructor.
have [t3 [l3 [-> [[_ E] H4]]]] : exists t3 l3, ts3 = t3 :: l3 /\ (skeleton t2 <> None /\ skeleton t2 = skeleton t3) /\ same_calls l2 l3.
  by inversion H3 as [|? t3 ? l3]; subst; exists t3, l3.
by constructor; [rewrite -E|apply: IH].
Qed.

(** a cycle leaves every matrix alone *)
Definition mats w1 w2 : Prop := tw_A w1 = tw_A w2 /\ tw_Q w1 = tw_Q w2 /\ List.Forall2 (@ctl_cov R n) (tw_ct w1) (tw_ct w2) /\ List.Forall2 (@obs_cov R n) (tw_ob w1) (tw_ob w2).
Lemma mats_refl w : mats w w.
Proof. by have [? [? [_ ?]]] := tw_cov_refl w. Qed.
Lemma mats_step w1 w t : mats w1 w -> skeleton t <> None -> mats w1 (tstep w t).
Proof.
move=> M; have [EA [EQ [FC FO]]] := M.
have idA A (l : seq A) k : l = alter id k l by elim: l k => [|a l IH] [|k] //=; rewrite -IH.
case: t => [|l|F|l F|i|j|j F|A|x|P|Q|i B|i u|i Q|j H|j z|j Q] //= _; do 2 split=> //; split=> //.
  by rewrite [X in List.Forall2 _ X](idA _ _ i); apply: F2alter FC _ => k1 k2 _ []; constructor.
by rewrite [X in List.Forall2 _ X](idA _ _ j); apply: F2alter FO _ => k1 k2 _ []; constructor.
Qed.
Lemma mats_run w1 w ts : mats w1 w -> List.Forall (fun t => skeleton t <> None) ts -> mats w1 (trun w ts).
Proof. by move=> M H; elim: H w M => [|t l Ht _ IH] w M //=; apply: IH; apply: mats_step. Qed.
Lemma mats_le w1 w2 : mats w1 w2 -> lemx (e_P (tw_s w1)) (e_P (tw_s w2)) -> tw_le w1 w2.
Proof.
move=> [EA [EQ [FC FO]]] H; split=> //; rewrite EQ; split; first exact: lemx_refl.
split=> //; split.
  by elim: FC => [|k1 k2 l1 l2 H1 _ IH]; constructor=> //; case: H1 => m B u1 u2 Qc; constructor; exact: lemx_refl.
by elim: FO => [|k1 k2 l1 l2 H1 _ IH]; constructor=> //; case: H1 => m B u1 u2 Qc; constructor; exact: lemx_refl.
Qed.
Lemma mats_sym w1 w2 : mats w1 w2 -> mats w2 w1.
Proof.
move=> [EA [EQ [FC FO]]]; do 2 (split; first by []); split.
  by elim: FC => [|k1 k2 l1 l2 H1 _ IH]; constructor=> //; case: H1 => *; constructor.
by elim: FO => [|k1 k2 l1 l2 H1 _ IH]; constructor=> //; case: H1 => *; constructor.
Qed.

Lemma skel_good w ts : List.Forall (fun t => skeleton t <> None) ts -> List.Forall (@no_zero_factor R n) ts -> ops_good w ts.
Proof.
move=> H; elim: H w => [|t l Ht _ IH] w H2 //=.
have [H3 H4] : no_zero_factor t /\ List.Forall (@no_zero_factor R n) l by inversion H2.
by split; [case: t Ht H3 {H2} => //= *; apply/eqP|apply: IH].
Qed.
Lemma same_skel ts1 ts2 : same_calls ts1 ts2 -> List.Forall (fun t => skeleton t <> None) ts2 /\
  (List.Forall (@no_zero_factor R n) ts1 -> List.Forall (@no_zero_factor R n) ts2).
Proof.
elim=> [|t1 t2 l1 l2 [H1 H2] _ [IH1 IH2]]; first by do 2 constructor.
split; first by constructor=> //; rewrite -H2.
move=> H3; have [Ha Hb] : no_zero_factor t1 /\ List.Forall (@no_zero_factor R n) l1 by inversion H3.
by constructor; last exact: IH2; case: t1 H1 H2 Ha {H3} => //; case: t2 => //= *; congruence.
Qed.

Lemma Forall_take A (P : A -> Prop) k l : List.Forall P l -> List.Forall P (take k l).
Proof. by move=> H; elim: H k => [|a l' Ha _ IH] [|k] /=; constructor. Qed.
Lemma Forall_flatten A (P : A -> Prop) l : List.Forall (List.Forall P) l -> List.Forall P (flatten l).
Proof. by elim=> [|a l' Ha _ IH] /=; [constructor|apply/List.Forall_app; split]. Qed.
Lemma Forall_behead A (P : A -> Prop) l : List.Forall P l -> List.Forall P (behead l).
Proof. by case=> //; constructor. Qed.

(** cycles all making the calls of [ts0] *)
Definition cyc ts0 (tss : seq (seq (top R n))) := List.Forall (same_calls ts0) tss.
Lemma cyc_good w ts0 tss k : cyc ts0 tss -> List.Forall (@no_zero_factor R n) ts0 ->
  List.Forall (fun t => skeleton t <> None) (flatten (take k tss)) /\ ops_good w (flatten (take k tss)).
Proof.
move=> H Z; have S : List.Forall (fun t => skeleton t <> None) (flatten (take k tss)).
  by apply/Forall_flatten/Forall_take; elim: H => [|ts l H1 _ IH]; constructor=> //; have [] := same_skel H1.
split=> //; apply: skel_good => //; apply/Forall_flatten/Forall_take.
by elim: H {S} => [|ts l H1 _ IH]; constructor=> //; have [_] := same_skel H1; apply.
Qed.
Lemma cyc_same ts0 tss1 tss2 : cyc ts0 tss1 -> cyc ts0 tss2 -> size tss1 = size tss2 -> same_calls (flatten tss1) (flatten tss2).
Proof.
move=> H; elim: H tss2 => [|ts1 l1 H1 _ IH] [|ts2 l2] H2 //=; first by move=> _; constructor.
have [Ha Hb] : same_calls ts0 ts2 /\ cyc ts0 l2 by inversion H2.
by move=> [E]; apply: List.Forall2_app; [apply: same_trans Ha; apply: same_sym|apply: IH].
Qed.
Lemma cyc_le w1 w2 ts0 tss1 tss2 k : tw_good w1 -> tw_good w2 -> tw_le w1 w2 -> List.Forall (@no_zero_factor R n) ts0 ->
  cyc ts0 tss1 -> cyc ts0 tss2 -> (k <= size tss1)%N -> (k <= size tss2)%N ->
  tw_le (trun w1 (flatten (take k tss1))) (trun w2 (flatten (take k tss2))).
Proof.
move=> g1 g2 L Z C1 C2 K1 K2; apply: run_le => //; [exact: (proj2 (cyc_good _ _ C1 Z))|exact: (proj2 (cyc_good _ _ C2 Z))|].
apply: same_le; apply: cyc_same; [exact: Forall_take C1|exact: Forall_take C2|].
by rewrite !size_takel.
Qed.
Lemma trun_S w tss k : trun w (flatten (take k.+1 tss)) = trun (trun w (flatten (take 1 tss))) (flatten (take k (behead tss))).
Proof. by case: tss => [|ts l] /=; rewrite ?take0 ?cats0 -?trun_cat. Qed.

(** programs *)
Lemma den_flat (w : world R) oss tss k : List.Forall2 (fun os ts => den w os ts) oss tss -> den w (flatten (take k oss)) (flatten (take k tss)).
Proof. by move=> H; elim: H k => [|os ts l1 l2 H1 _ IH] [|k] /=; try constructor; apply: List.Forall2_app. Qed.

Theorem cycle_monotone (w : world R) (oss : seq (seq (op R))) (ts0 : seq (top R n)) (tss : seq (seq (top R n))) :
  world_ok c n w -> tw_good (abs w) -> List.Forall2 (fun os ts => den w os ts) oss tss ->
  List.Forall (same_calls ts0) tss -> List.Forall (@no_zero_factor R n) ts0 ->
  exists Ps : nat -> 'M[R]_n,
    (forall k, (k <= size oss)%N -> exists w' : world R, run c N n w (flatten (take k oss)) = Ok w' /\ wP w' = Ps k) /\
    (lemx (Ps 0%N) (Ps 1%N) -> forall k, (k < size oss)%N -> lemx (Ps k) (Ps k.+1)) /\
    (lemx (Ps 1%N) (Ps 0%N) -> forall k, (k < size oss)%N -> lemx (Ps k.+1) (Ps k)).
Proof.
move=> W g D C Z; exists (fun k => e_P (tw_s (trun (abs w) (flatten (take k tss))))).
have sz : size oss = size tss by elim: D {C} => [|? ? ? ? _ _] //= ->.
split.
  move=> k _; have [O _] := run_good g (proj2 (cyc_good (abs w) k C Z)).
  have [w' [E [_ [_ [_ A]]]]] := run_refines W (den_flat k D) O.
  by exists w'; split=> //; rewrite -A.
have g1 : tw_good (trun (abs w) (flatten (take 1 tss))) by have [] := run_good g (proj2 (cyc_good (abs w) 1 C Z)).
have M1 : mats (abs w) (trun (abs w) (flatten (take 1 tss))) by apply: mats_run (mats_refl _) (proj1 (cyc_good (abs w) 1 C Z)).
have E0 : trun (abs w) (flatten (take 0 tss)) = abs w by rewrite take0.
rewrite E0; have Cb := Forall_behead C.
have sb k : (k < size oss)%N -> (k <= size tss)%N /\ (k <= size (behead tss))%N.
  by rewrite sz size_behead; case: (size tss) => // s; rewrite ltnS /= => H; split=> //; apply: leq_trans H _.
split=> L k /sb [k1 k2]; rewrite trun_S.
- by have [_ [_ []]] := cyc_le g g1 (mats_le M1 L) Z C Cb k1 k2.
- by have [_ [_ []]] := cyc_le g1 g (mats_le (mats_sym M1) L) Z Cb C k2 k1.
Qed.

Corollary cycle_from_zero (w : world R) (oss : seq (seq (op R))) (ts0 : seq (top R n)) (tss : seq (seq (top R n))) :
  world_ok c n w -> tw_good (abs w) -> List.Forall2 (fun os ts => den w os ts) oss tss ->
  List.Forall (same_calls ts0) tss -> List.Forall (@no_zero_factor R n) ts0 -> wP w = 0 ->
  forall k, (k < size oss)%N -> exists w1 w2 : world R, run c N n w (flatten (take k oss)) = Ok w1 /\
    run c N n w (flatten (take k.+1 oss)) = Ok w2 /\ lemx (wP w1) (wP w2).
Proof.
move=> W g D C Z P0 k Hk; have [Ps [H [L _]]] := cycle_monotone W g D C Z.
have [w1 [E1 P1]] := H k (ltnW Hk); have [w2 [E2 P2]] := H k.+1 Hk.
exists w1, w2; split=> //; split=> //; rewrite P1 P2; apply: L => //.
have [w0 [E0 X0]] := H 0%N isT; have H1 : (0 < size oss)%N by apply: leq_ltn_trans Hk.
have [wa [Ea Xa]] := H 1%N H1.
move: E0; rewrite take0 /= => -[Ew]; rewrite -X0 -Ew P0 /lemx subr0.
have [O g1] := run_good g (proj2 (cyc_good (abs w) 1 C Z)).
have [w' [E [_ [_ [_ A]]]]] := run_refines W (den_flat 1 D) O.
by move: E; rewrite Ea => -[Eb]; subst w'; rewrite -Xa -[wP wa]/(e_P (tw_s (abs wa))) A; case: g1.
Qed.

(** a covariance which a cycle does not increase bounds every later one *)
Theorem cycle_bound (w ws ws' : world R) (oss : seq (seq (op R))) (os0 : seq (op R)) (ts0 : seq (top R n)) (tss : seq (seq (top R n))) :
  world_ok c n w -> tw_good (abs w) -> List.Forall2 (fun os ts => den w os ts) oss tss ->
  List.Forall (same_calls ts0) tss -> List.Forall (@no_zero_factor R n) ts0 ->
  world_ok c n ws -> psd (wP ws) -> den ws os0 ts0 -> List.Forall (fun t => skeleton t <> None) ts0 ->
  abs ws = tw_est (abs w) (Est (e_x (tw_s (abs ws))) (wP ws)) -> run c N n ws os0 = Ok ws' -> lemx (wP ws') (wP ws) ->
  lemx (wP w) (wP ws) ->
  forall k, (k <= size oss)%N -> exists w' : world R, run c N n w (flatten (take k oss)) = Ok w' /\ lemx (wP w') (wP ws).
Proof.
move=> W g D C Z Ws pS D0 K0 Es R0 L1 L0 k Hk.
have sz : size oss = size tss by elim: D {C} => [|? ? ? ? _ _] //= ->.
have gs : tw_good (abs ws) by case: g => _ [? [? ?]]; rewrite Es; do 3 split=> //.
have [O _] := run_good g (proj2 (cyc_good (abs w) k C Z)).
have [w' [E [_ [_ [_ A]]]]] := run_refines W (den_flat k D) O.
exists w'; split=> //; rewrite -[wP w']/(e_P (tw_s (abs w'))) A.
have G0 := skel_good (abs ws) K0 Z.
have [O0 _] := run_good gs G0; have [w2 [E2 [_ [_ [_ A2]]]]] := run_refines Ws D0 O0.
move: E2; rewrite R0 => -[Ew]; subst w2.
have SS : same_calls ts0 ts0.
  by clear -K0; elim: K0 => [|t l Ht _ IH]; constructor.
have Crep j : cyc ts0 (nseq j ts0) by elim: j => [|j IH]; constructor.
(* repeating the cycle from ws stays below *)
have below j : lemx (e_P (tw_s (trun (abs ws) (flatten (nseq j ts0))))) (wP ws).
  elim: j => [|j IH] /=; first exact: lemx_refl.
  rewrite trun_cat -A2.
  have gr i : tw_good (trun (abs ws) (flatten (nseq i ts0))).
    have [_ X] := cyc_good (abs ws) i (Crep i) Z; rewrite take_oversize ?size_nseq // in X; by have [] := run_good gs X.
  have M1 : mats (abs ws) (abs ws') by rewrite A2; apply: mats_run (mats_refl _) K0.
  have g' : tw_good (abs ws') by have [_] := run_good gs G0; rewrite -A2.
  have := cyc_le g' gs (mats_le (mats_sym M1) L1) Z (Crep j) (Crep j) (k := j); rewrite size_nseq leqnn => /(_ isT isT).
  rewrite !take_oversize ?size_nseq // => -[_ [_ [H _]]].
  exact: lemx_trans H IH.
have M0 : mats (abs w) (abs ws) by rewrite Es; have := mats_refl (abs w).
have := cyc_le g gs (mats_le M0 L0) Z C (Crep k) (k := k); rewrite size_nseq leqnn -sz Hk => /(_ isT isT).
rewrite [take k (nseq _ _)]take_oversize ?size_nseq // => -[_ [_ [H _]]].
exact: lemx_trans H (below k).
Qed.
End Cycle.
