(** * A cycle meeting the hypotheses of the steady-state theorem *)
From Verif Require Import Spec Matrix Filter Extended SpecFilter History SpecGen SpecExact SpecHistory SpecWorld SpecCycle SpecMap SpecFade SpecSteady.
From Verif Require Import Zmod Psd KMath HistGen FilterExact HistExact WorldMath HistMain ExampleData Represent ExactExamples CycleExamples.
From mathcomp Require Import all_ssreflect all_algebra.
Set Implicit Arguments.
Unset Strict Implicit.
Unset Printing Implicit Defensive.
Import Order.TTheory GRing.Theory Num.Theory.
Local Open Scope ring_scope.

Section SteadyExamples.
Variable R : rcfType.
Local Notation den w os ts := (List.Forall2 (@denotes R cfg64 2 w) os ts).
Local Notation I2 := (1%:M : 'M[R]_2).
Local Notation half := (2%:R^-1 : R).

(** a drifting pair of numbers, both measured; covariance p *)
Definition s_tw (p : R) : tworld R 2 := TW I2 I2 (Est (const_mx 4%:R) (p%:M)) [::] [:: TObs (1%:M : 'M[R]_2) (const_mx 7%:R) 1%:M].
Definition s_cycle (z : R) : seq (top R 2) := [:: TPredict; TSetZ 0 (fun m => const_mx z); TCorrect 0].
Definition s_cycles1 : seq (seq (top R 2)) := [:: s_cycle 1; s_cycle 5%:R; s_cycle 0].
Definition s_cycles2 : seq (seq (top R 2)) := [:: s_cycle 3%:R; s_cycle 2%:R; s_cycle 9%:R; s_cycle 1].

Lemma s_fits p : tw_fits cfg64 (s_tw p).
Proof.
have Hn : (0 < 2)%N by [].
have H1 : fits cfg64 2 1 by apply: fits64.
have H2 : fits cfg64 2 2 by apply: fits64.
refine (conj Hn (conj H1 (conj H2 (conj _ _)))); first exact: List.Forall_nil.
by apply: List.Forall_cons; [exact: ob_fits64|exact: List.Forall_nil].
Qed.
Lemma s_pd p : 0 < p -> pd (p%:M : 'M[R]_2).
Proof. by move=> p0; rewrite -scalemx1; apply: pdZ => //; exact: pd1. Qed.
Lemma s_le p q : p <= q -> lemx (p%:M : 'M[R]_2) q%:M.
Proof. by move=> pq; rewrite /lemx -raddfB /= -scalemx1; apply: psdZ; [rewrite subr_ge0|exact: one_psd]. Qed.
Lemma s_good p : 0 <= p -> tw_good (s_tw p).
Proof.
move=> p0; have H2 : (0 < 2)%N by [].
split; first by rewrite /= -scalemx1; apply: psdZ => //; exact: one_psd.
split; first exact: one_psd.
split; first exact: List.Forall_nil.
by apply: List.Forall_cons; [exact: (conj H2 (pd1 R 2))|exact: List.Forall_nil].
Qed.
(** prediction and correction on multiples of the identity *)
Lemma s_after z p q : 0 <= p -> cov_after (s_tw q) (s_cycle z) p%:M = ((p + 1) / (p + 1 + 1))%:M.
Proof.
move=> p0; rewrite /cov_after /=.
rewrite /t_S /t_K /t_S /= ?mul1mx ?trmx1 ?mulmx1 ?mul1mx -!raddfD /= invmx_scalar -!scalar_mxM -raddfB /=; congr (_%:M).
have a0 : 0 <= p + 1 by rewrite addr_ge0 // ler01.
move: (p + 1) a0 => a a0; have n0 : a + 1 != 0 by apply: lt0r_neq0; rewrite ltr_spaddr ?ltr01.
by apply: (mulIf n0); rewrite mulrBl divfK // mulrAC divfK // -mulrBr [a + 1]addrC addrK mulr1.
Qed.
Lemma s_ls : ls_ops (start (s_tw half) (half%:M)) (s_cycle 0).
Proof.
have h0 : 0 < half by rewrite invr_gt0 ltr0n.
have H2 : (0 < 2)%N by [].
split; first by split; [exact: one_psd|rewrite /= mul1mx trmx1 mulmx1; apply: pdD (pd1 _ _); exact/pd_psd/s_pd].
by split; [|split; [exact: (conj H2 (pd1 R 2))|]].
Qed.
Lemma s_noisy : noisy 1 (start (s_tw half) (1%:M)) (s_cycle 0).
Proof. by split; [rewrite /= scale1r mul1mx trmx1 mulmx1; exact: lemx_refl|split]. Qed.
Lemma half_le1 : half <= 1.
Proof. by rewrite invf_le1 ?ltr0n // (ler_nat _ 1). Qed.
Lemma hh : half + half = 1.
Proof. by rewrite -[half]mul1r -mulrDl divff // -(natrD _ 1 1) pnatr_eq0. Qed.
Lemma s_low : lemx (half%:M : 'M[R]_2) (cov_after (s_tw half) (s_cycle 0) half%:M).
Proof.
have h0 : 0 <= half by rewrite invr_ge0 ler0n.
rewrite s_after //; apply: s_le; have a0 : 0 < half + 1 + 1 by rewrite !addr_gt0 ?ltr01 // invr_gt0 ltr0n.
rewrite ler_pdivl_mulr // !mulrDr !mulr1; have -> : half + 1 = half + half + half by rewrite -addrA hh.
by rewrite !ler_add2r ler_pimulr //; exact: half_le1.
Qed.
Lemma s_high : lemx (cov_after (s_tw half) (s_cycle 0) 1%:M) (1%:M : 'M[R]_2).
Proof.
rewrite s_after ?ler01 //; apply: s_le; have a0 : 0 < (1 + 1 + 1 : R) by rewrite !addr_gt0 ?ltr01.
by rewrite ler_pdivr_mulr // mul1r ler_addl ler01.
Qed.
Lemma s_cov : same_matrices (s_tw half) (s_tw half) /\ same_matrices (s_tw half) (s_tw 1).
Proof. by split; (split; [|split; [|split]]) => //=; constructor=> //; constructor. Qed.
Lemma s_same a b : same_calls (s_cycle a) (s_cycle b).
Proof. by do !constructor. Qed.

Lemma steady_example : exists (w1 w2 : world R) oss1 oss2, world_ok cfg64 2 w1 /\ world_ok cfg64 2 w2 /\
  tw_good (s_tw half) /\ List.Forall (@no_zero_factor R 2) (s_cycle 0) /\ List.Forall (fun t => skeleton t <> None) (s_cycle (0 : R)) /\
  pd (half%:M : 'M[R]_2) /\ lemx (half%:M : 'M[R]_2) 1%:M /\ lemx (1%:M : 'M[R]_2) (2%:R *: half%:M) /\
  lemx (half%:M : 'M[R]_2) (cov_after (s_tw half) (s_cycle 0) half%:M) /\ lemx (cov_after (s_tw half) (s_cycle 0) 1%:M) (1%:M : 'M[R]_2) /\
  ls_ops (start (s_tw half) (half%:M)) (s_cycle 0) /\ noisy 1 (start (s_tw half) (1%:M)) (s_cycle 0) /\
  same_matrices (s_tw half) (world_abs 2 w1) /\ same_matrices (s_tw half) (world_abs 2 w2) /\
  List.Forall2 (fun os ts => den w1 os ts) oss1 s_cycles1 /\ List.Forall2 (fun os ts => den w2 os ts) oss2 s_cycles2 /\
  List.Forall (same_calls (s_cycle 0)) s_cycles1 /\ List.Forall (same_calls (s_cycle 0)) s_cycles2 /\
  mx 2 2 (kf_P (w_kf w1)) = half%:M /\ mx 2 2 (kf_P (w_kf w2)) = 1%:M /\ size oss1 = 3%N /\ size oss2 = 4%N /\ predictions (s_cycle (0 : R)) = 1%N.
Proof.
have h0 : 0 < half by rewrite invr_gt0 ltr0n.
have [c1 c2] := s_cov.
have A1 : world_abs 2 (rep (s_tw half)) = s_tw half by apply: rep_abs; exact: (s_fits half).
have A2 : world_abs 2 (rep (s_tw 1)) = s_tw 1 by apply: rep_abs; exact: (s_fits 1).
exists (rep (s_tw half)), (rep (s_tw 1)), (List.map (x_rep (s_tw half)) s_cycles1), (List.map (x_rep (s_tw 1)) s_cycles2).
split; first by apply: rep_ok; exact: s_fits.
split; first by apply: rep_ok; exact: s_fits.
split; first exact/s_good/ltW.
split; first by do !constructor.
split; first by do !constructor.
split; first exact: s_pd.
split; first by apply: s_le; exact: half_le1.
split; first by rewrite scale_scalar_mx divff ?pnatr_eq0 //; exact: lemx_refl.
split; first exact: s_low.
split; first exact: s_high.
split; first exact: s_ls.
split; first exact: s_noisy.
rewrite -[mx 2 2 (kf_P (w_kf (rep (s_tw half))))]/(e_P (tw_s (world_abs 2 (rep (s_tw half))))) -[mx 2 2 _]/(e_P (tw_s (world_abs 2 (rep (s_tw 1))))) A1 A2.
do 2 (split; first by []).
split; first exact: x_reps_den.
split; first exact: x_reps_den.
split; first by do !(apply: List.Forall_cons; first exact: s_same); apply: List.Forall_nil.
split; first by do !(apply: List.Forall_cons; first exact: s_same); apply: List.Forall_nil.
by [].
Qed.
End SteadyExamples.
