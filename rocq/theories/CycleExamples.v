(** * Cycles meeting the hypotheses of C74 and C75 *)
From Verif Require Import Spec Matrix Filter Extended SpecFilter History SpecGen SpecExact SpecHistory SpecWorld SpecCycle Zmod Psd KMath HistGen FilterExact HistExact WorldMath HistMain.
From Verif Require Import ExampleData Represent ExactExamples CycleMain.
From mathcomp Require Import all_ssreflect all_algebra.
Set Implicit Arguments.
Unset Strict Implicit.
Unset Printing Implicit Defensive.
Import Order.TTheory GRing.Theory Num.Theory.
Local Open Scope ring_scope.

Section CycleExamples.
Variable R : rcfType.
Local Notation den w os ts := (List.Forall2 (@denotes R cfg64 2 w) os ts).

(** halving dynamics, one input, two sensors; covariance P0 *)
Definition x_half P0 : tworld R 2 := TW (2%:R^-1)%:M 1%:M (Est (const_mx 2%:R) P0) [:: x_ct R] [:: x_ob1 R; x_ob2 R].
Lemma x_half_fits P0 : tw_fits cfg64 (x_half P0).
Proof. exact: (x_gen_fits (const_mx 2%:R) P0 1%:M (const_mx 3%:R) (x_P R 1) (const_mx 5%:R) (x_P R 1) (const_mx 7%:R) (x_P R 2)). Qed.
Lemma x_half_good P0 : psd P0 -> tw_good (x_half P0).
Proof.
by move=> p; have [_ H] := x_gen_good (const_mx 2%:R) (const_mx 3%:R) (const_mx 5%:R) (const_mx 7%:R) p (one_psd R 2) (x_P_psd R 1) (x_P_pd R 1) (x_P_pd R 2).
Qed.
(** the cycle, with new measurements each time *)
Definition x_cycle (a b : R) : seq (top R 2) :=
  [:: TPredict; TSetZ 0 (fun m => const_mx a); TCorrect 0; TSetZ 1 (fun m => const_mx b); TCorrect 1].
Definition x_cycles : seq (seq (top R 2)) := [:: x_cycle 1 2%:R; x_cycle 3%:R 4%:R; x_cycle 5%:R 6%:R].
Lemma x_same a b a' b' : same_calls (x_cycle a b) (x_cycle a' b').
Proof. by do !constructor. Qed.
Lemma x_cycles_same : List.Forall (same_calls (x_cycle 0 0)) x_cycles.
Proof. by do !(apply: List.Forall_cons; first exact: x_same); apply: List.Forall_nil. Qed.
Lemma x_cycle_nz : List.Forall (@no_zero_factor R 2) (x_cycle 0 0).
Proof. by do !constructor. Qed.
Lemma x_cycle_skel : List.Forall (fun t => skeleton t <> None) (x_cycle 0 0).
Proof. by do !constructor. Qed.

Definition x_rep (w : tworld R 2) ts : seq (op R) := List.map (@rep_op R 2 (ct_dims (rep w)) (ob_dims (rep w))) ts.
Lemma x_rep_den (w : tworld R 2) ts : den (rep w) (x_rep w ts) ts.
Proof. by elim: ts => [|t ts IH] /=; constructor=> //; apply: rep_denotes. Qed.
Lemma x_reps_den (w : tworld R 2) tss : List.Forall2 (fun os ts => den (rep w) os ts) (List.map (x_rep w) tss) tss.
Proof. by elim: tss => [|ts tss IH] /=; constructor=> //; apply: x_rep_den. Qed.

(** started from certainty the first cycle cannot decrease the covariance: C74 applies *)
Lemma cycle_example : exists (w w1 : world R) oss, world_ok cfg64 2 w /\ tw_good (world_abs 2 w) /\
  List.Forall2 (fun os ts => den w os ts) oss x_cycles /\ List.Forall (same_calls (x_cycle 0 0)) x_cycles /\
  List.Forall (@no_zero_factor R 2) (x_cycle 0 0) /\ size oss = 3%N /\
  run cfg64 (@exact_num R) 2 w (flatten (take 1 oss)) = Ok w1 /\ lemx (mx 2 2 (kf_P (w_kf w))) (mx 2 2 (kf_P (w_kf w1))).
Proof.
pose w := rep (x_half 0).
have W : world_ok cfg64 2 w by apply: rep_ok; exact: x_half_fits.
have A : world_abs 2 w = x_half 0 by apply: rep_abs.
have g : tw_good (world_abs 2 w) by rewrite A; apply: x_half_good (psd0 _ _).
have D := x_reps_den (x_half 0) x_cycles; rewrite -/w in D.
have D1 := den_flat 1 D.
have G1 := proj2 (cyc_good (world_abs 2 w) 1 x_cycles_same x_cycle_nz).
have [O1 g1] := run_good g G1.
have [w1 [E [_ [_ [_ A1]]]]] := run_refines W D1 O1.
exists w, w1, (List.map (x_rep (x_half 0)) x_cycles).
do 3 split=> //; split; first exact: x_cycles_same.
split; first exact: x_cycle_nz.
do 2 split=> //.
have -> : mx 2 2 (kf_P (w_kf w)) = 0 by rewrite -[LHS]/(e_P (tw_s (world_abs 2 w))) A.
by rewrite /lemx subr0 -[mx _ _ _]/(e_P (tw_s (world_abs 2 w1))) A1; case: g1.
Qed.

Lemma half_S : lemx ((2%:R^-1)%:M *m (2%:R *: 1%:M) *m ((2%:R^-1)%:M)^T + 1%:M) (2%:R *: 1%:M : 'M[R]_2).
Proof.
rewrite /lemx tr_scalar_mx scalemx1 -!scalar_mxM mulVf ?two_neq0 // mul1r.
have E : (1 : R) = 2%:R^-1 + 2%:R^-1 by rewrite -mulr2n -[X in X *+ 2]mulr1 -mulrnAr mulVf // two_neq0.
have -> : (2%:R)%:M - ((2%:R^-1)%:M + 1%:M) = 2%:R^-1 *: 1%:M :> 'M[R]_2.
  rewrite scalemx1; apply/matrixP => i j; rewrite !mxE; case: (i == j); rewrite ?mulr1n ?mulr0n; last by zmod.
  move: E; set h := 2%:R^-1 => E; have -> : 2%:R = 1 + 1 :> R by rewrite mulr2n.
  by rewrite E; zmod.
by apply: psdZ; [rewrite invr_ge0 ler0n|exact: one_psd].
Qed.

(** twice the identity is not increased by the cycle: C75 applies to the filter started at the identity *)
Lemma bound_example : exists (w ws ws' : world R) oss os0, world_ok cfg64 2 w /\ tw_good (world_abs 2 w) /\
  List.Forall2 (fun os ts => den w os ts) oss x_cycles /\ List.Forall (same_calls (x_cycle 0 0)) x_cycles /\
  List.Forall (@no_zero_factor R 2) (x_cycle 0 0) /\
  world_ok cfg64 2 ws /\ psd (mx 2 2 (kf_P (w_kf ws))) /\ den ws os0 (x_cycle 0 0) /\ List.Forall (fun t => skeleton t <> None) (x_cycle 0 0) /\
  world_abs 2 ws = tw_est (world_abs 2 w) (Est (e_x (tw_s (world_abs 2 ws))) (mx 2 2 (kf_P (w_kf ws)))) /\
  run cfg64 (@exact_num R) 2 ws os0 = Ok ws' /\ lemx (mx 2 2 (kf_P (w_kf ws'))) (mx 2 2 (kf_P (w_kf ws))) /\
  lemx (mx 2 2 (kf_P (w_kf w))) (mx 2 2 (kf_P (w_kf ws))).
Proof.
pose w := rep (x_half 1%:M); pose S : 'M[R]_2 := 2%:R *: 1%:M; pose ws := rep (x_half S).
have pS : psd S by apply: psdZ; [rewrite ler0n|exact: one_psd].
have W : world_ok cfg64 2 w by apply: rep_ok; exact: x_half_fits.
have Ws : world_ok cfg64 2 ws by apply: rep_ok; exact: x_half_fits.
have A : world_abs 2 w = x_half 1%:M by apply: rep_abs.
have As : world_abs 2 ws = x_half S by apply: rep_abs.
have g : tw_good (world_abs 2 w) by rewrite A; apply: x_half_good (one_psd _ _).
have gs : tw_good (world_abs 2 ws) by rewrite As; apply: x_half_good pS.
have D := x_reps_den (x_half 1%:M) x_cycles; rewrite -/w in D.
have D0 := x_rep_den (x_half S) (x_cycle 0 0); rewrite -/ws in D0.
have [O0 _] := run_good gs (skel_good (world_abs 2 ws) x_cycle_skel x_cycle_nz).
have [ws' [E [_ [_ [_ A1]]]]] := run_refines Ws D0 O0.
have EP : mx 2 2 (kf_P (w_kf w)) = 1%:M by rewrite -[LHS]/(e_P (tw_s (world_abs 2 w))) A.
have ES : mx 2 2 (kf_P (w_kf ws)) = S by rewrite -[LHS]/(e_P (tw_s (world_abs 2 ws))) As.
exists w, ws, ws', (List.map (x_rep (x_half 1%:M)) x_cycles), (x_rep (x_half S) (x_cycle 0 0)).
rewrite EP ES.
refine (conj W (conj g (conj D (conj x_cycles_same (conj x_cycle_nz (conj Ws (conj pS (conj D0 (conj x_cycle_skel (conj _ (conj E (conj _ _)))))))))))).
- by rewrite As A.
- rewrite -[mx _ _ _]/(e_P (tw_s (world_abs 2 ws'))) A1 As.
  set w1 := tstep (x_half S) TPredict.
  have p1 : psd (e_P (tw_s w1)) by apply: predict_psd => //; exact: one_psd.
  have L1 : lemx (e_P (tw_s w1)) S by exact: half_S.
  set w3 := tstep (tstep w1 (TSetZ 0 (fun m => const_mx 0))) (TCorrect 0).
  have p3 : psd (e_P (tw_s w3)) by apply: Ppost_psd => //; [exact: x_P_psd|apply: S_pd => //; exact: x_P_pd].
  have L3 : lemx (e_P (tw_s w3)) (e_P (tw_s w1)).
    by apply: correct_decreases; [case: p1|apply: S_pd => //; exact: x_P_pd].
  apply: lemx_trans (lemx_trans L3 L1).
  by apply: correct_decreases; [case: p3|apply: S_pd => //; exact: x_P_pd].
- by rewrite /lemx /S scaler_nat mulr2n addrK; exact: one_psd.
Qed.
End CycleExamples.
