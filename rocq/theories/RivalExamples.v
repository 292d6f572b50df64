(** * Two readings settle a position-velocity system: a rival with gain (1, 1) forgets its start in two cycles *)
From Verif Require Import Spec Matrix Filter Extended SpecFilter History SpecGen SpecExact SpecHistory SpecWorld SpecRival Psd ExampleData Represent ExactExamples WorldMath Rival.
From mathcomp Require Import all_ssreflect all_algebra.
Set Implicit Arguments.
Unset Strict Implicit.
Unset Printing Implicit Defensive.
Import Order.TTheory GRing.Theory Num.Theory.
Local Open Scope ring_scope.

Section RivalExamples.
Variable R : rcfType.
Definition d_ts (z1 z2 : R) : seq (top R 2) :=
  [:: TPredict; TSetZ 0 (fun m => const_mx z1); TCorrect 0; TPredict; TSetZ 0 (fun m => const_mx z2); TCorrect 0].
Definition d_g : gains R 2 := fun k m => const_mx 1.
Lemma d_good z1 z2 : ops_good (x_tw R) (d_ts z1 z2).
Proof. by []. Qed.

Lemma d_FA : (1%:M - (const_mx 1 : 'M[R]_(2, 1)) *m delta_mx 0 0) *m x_A R = - delta_mx 1 0.
Proof.
apply/matrixP => i j; rewrite !mxE big_ord_recl big_ord1 !mxE !big_ord1 !mxE.
case: i => [[|[|i]] Hi] //; case: j => [[|[|j]] Hj] //.
all: by rewrite /= ?(mulr0n, mulr1n, mul1r, mulr0, subr0, sub0r, add0r, addr0, mulr1, subrr, mul0r, oppr0, mulNr, addNr).
Qed.
Lemma d_phi z1 z2 : rival_phi (x_tw R) (d_ts z1 z2) d_g = 0.
Proof.
rewrite [rival_phi _ _ _]/= /d_g; set FF := 1%:M - _; set B := x_A R.
have E : FF *m B = - delta_mx 1 0 by exact: d_FA.
by rewrite !mul1mx !mulmx1 E -mulmxA E mulNmx mulmxN opprK mul_delta_mx_0.
Qed.

Local Notation den w os ts := (List.Forall2 (@denotes R cfg64 2 w) os ts).
Lemma rival_example : exists (w : world R) os, world_ok cfg64 2 w /\ world_abs 2 w = x_tw R /\ den w os (x_ts R) /\ tw_good (x_tw R) /\ ops_good (x_tw R) (x_ts R).
Proof.
have [w [os [W [A D]]]] := rep_program (x_ts R) (x_tw_fits R).
by exists w, os; do 3 split=> //; split; [exact: x_tw_good|exact: x_ts_good].
Qed.
Lemma deadbeat_example z1 z2 : exists (w : world R) os, world_ok cfg64 2 w /\ world_abs 2 w = x_tw R /\ den w os (d_ts z1 z2) /\ tw_good (x_tw R) /\
  ops_good (x_tw R) (d_ts z1 z2) /\ rival_phi (x_tw R) (d_ts z1 z2) d_g = 0.
Proof.
have [w [os [W [A D]]]] := rep_program (d_ts z1 z2) (x_tw_fits R).
by exists w, os; do 3 split=> //; split; [exact: x_tw_good|split; [exact: d_good|exact: d_phi]].
Qed.
Lemma d_goods (zs : seq (R * R)) (w : tworld R 2) : ops_good w (List.concat [seq d_ts z.1 z.2 | z <- zs]).
Proof. by elim: zs w => [|z zs IH] w //=; do 6 split=> //; exact: IH. Qed.
Lemma for_ever_example (zs : seq (R * R)) : exists (w : world R) os M, let cs := [seq d_ts z.1 z.2 | z <- zs] in
  world_ok cfg64 2 w /\ world_abs 2 w = x_tw R /\ den w os (List.concat cs) /\ tw_good (x_tw R) /\ ops_good (x_tw R) (List.concat cs) /\
  List.Forall (fun ts => List.Forall2 (@same_call R 2) ts (d_ts 0 0)) cs /\
  lemx (mx 2 2 (kf_P (w_kf w))) M /\ lemx (rival_cov (x_tw R) (d_ts 0 0) d_g M) M.
Proof.
have [w [os [W [A D]]]] := rep_program (List.concat [seq d_ts z.1 z.2 | z <- zs]) (x_tw_fits R).
pose C := rival_cov (x_tw R) (d_ts 0 0) d_g 0; exists w, os, (x_P R 2 + C); do 3 split=> //.
have pC : psd C by apply: (rival_psd d_g (x_tw_good R) (d_good 0 0)); exact: psd0.
split; first exact: x_tw_good.
split; first exact: d_goods.
split; first by elim: zs {D} => [|z zs IH] /=; constructor=> //; rewrite /d_ts; repeat constructor.
rewrite -[mx 2 2 _]/(e_P (tw_s (world_abs 2 w))) A; split.
  by rewrite /lemx [tw_s _]/= [e_P _]/= addrC addKr.
rewrite rival_affine d_phi !mul0mx add0r -/C /lemx addrK; exact: x_P_psd.
Qed.
End RivalExamples.
