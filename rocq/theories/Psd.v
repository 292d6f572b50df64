(** * Positive (semi-)definite matrices and the mathematics of the textbook filter *)
From Verif Require Import SpecExact.
From mathcomp Require Import all_ssreflect all_algebra.
Set Implicit Arguments.
Unset Strict Implicit.
Unset Printing Implicit Defensive.
Import Order.TTheory GRing.Theory Num.Theory.
Local Open Scope ring_scope.

Section Psd.
Variable R : rcfType.

Lemma qfD n (A B : 'M[R]_n) v : qf (A + B) v = qf A v + qf B v.
Proof. by rewrite /qf mulmxDr mulmxDl mxE. Qed.
Lemma qfN n (A : 'M[R]_n) v : qf (- A) v = - qf A v.
Proof. by rewrite /qf mulmxN mulNmx mxE. Qed.
Lemma qfB n (A B : 'M[R]_n) v : qf (A - B) v = qf A v - qf B v.
Proof. by rewrite qfD qfN. Qed.
Lemma qfZ n a (A : 'M[R]_n) v : qf (a *: A) v = a * qf A v.
Proof. by rewrite /qf -scalemxAr -scalemxAl mxE. Qed.
Lemma qf0 n (v : 'cV[R]_n) : qf 0 v = 0.
Proof. by rewrite /qf mulmx0 mul0mx mxE. Qed.
Lemma qf_0 n (M : 'M[R]_n) : qf M 0 = 0.
Proof. by rewrite /qf mulmx0 mxE. Qed.
Lemma qf_congr n m (A : 'M[R]_(n, m)) (P : 'M[R]_m) v : qf (A *m P *m A^T) v = qf P (A^T *m v).
Proof. by rewrite /qf trmx_mul trmxK !mulmxA. Qed.

Lemma qf_add n (M : 'M[R]_n) u v :
  qf M (u + v) = qf M u + qf M v + (u^T *m M *m v) 0 0 + (v^T *m M *m u) 0 0.
Proof.
rewrite /qf [(u + v)^T]linearD /= mulmxDl mulmxDr !mulmxDl !(mxE addmx_key).
rewrite -!addrA; congr (_ + _).
by rewrite addrCA [RHS]addrCA; congr (_ + _); rewrite addrC.
Qed.

Definition sqn n (v : 'cV[R]_n) : R := \sum_i v i 0 ^+ 2.
Lemma sqnE n (v : 'cV[R]_n) : (v^T *m v) 0 0 = sqn v.
Proof. by rewrite mxE; apply: eq_bigr => i _; rewrite mxE expr2. Qed.
Lemma sqn_ge0 n (v : 'cV[R]_n) : 0 <= sqn v.
Proof. by apply: sumr_ge0 => i _; apply: sqr_ge0. Qed.
Lemma sqn_eq0 n (v : 'cV[R]_n) : (sqn v == 0) = (v == 0).
Proof.
apply/idP/eqP => [|->]; last by rewrite /sqn big1 // => i _; rewrite mxE expr0n.
rewrite psumr_eq0 => [/allP Hv|i _]; last exact: sqr_ge0.
apply/matrixP => i j; rewrite ord1 [RHS]mxE; apply/eqP.
by rewrite -sqrf_eq0; apply: (Hv i); rewrite mem_index_enum.
Qed.
Lemma sqn_gt0 n (v : 'cV[R]_n) : v != 0 -> 0 < sqn v.
Proof. by move=> Hv; rewrite lt_neqAle sqn_ge0 eq_sym sqn_eq0 Hv. Qed.

Lemma pd_psd n (M : 'M[R]_n) : pd M -> psd M.
Proof.
case=> Hs Hp; split=> // v; have [->|/Hp /ltW //] := eqVneq v 0; by rewrite qf_0.
Qed.

Lemma psd0 n : psd (0 : 'M[R]_n).
Proof. by split=> [|v]; [rewrite /sym trmx0|rewrite qf0]. Qed.

Lemma pd1 n : pd (1%:M : 'M[R]_n).
Proof.
split=> [|v Hv]; first by rewrite /sym trmx1.
by rewrite /qf mulmx1 sqnE sqn_gt0.
Qed.

Lemma psdD n (A B : 'M[R]_n) : psd A -> psd B -> psd (A + B).
Proof.
case=> sA pA [sB pB]; split=> [|v]; first by rewrite /sym linearD /= sA sB.
by rewrite qfD addr_ge0.
Qed.

Lemma pdD n (A B : 'M[R]_n) : psd A -> pd B -> pd (A + B).
Proof.
case=> sA pA [sB pB]; split=> [|v Hv]; first by rewrite /sym linearD /= sA sB.
by rewrite qfD ltr_paddl // pB.
Qed.

Lemma pdDr n (A B : 'M[R]_n) : pd A -> psd B -> pd (A + B).
Proof. by move=> HA HB; rewrite addrC; apply: pdD. Qed.

Lemma psdZ n a (A : 'M[R]_n) : 0 <= a -> psd A -> psd (a *: A).
Proof.
move=> Ha [sA pA]; split=> [|v]; first by rewrite /sym linearZ /= sA.
by rewrite qfZ mulr_ge0.
Qed.

Lemma sym_congr n m (A : 'M[R]_(n, m)) (P : 'M[R]_m) : sym P -> sym (A *m P *m A^T).
Proof. by move=> sP; rewrite /sym !trmx_mul trmxK sP mulmxA. Qed.

Lemma psd_congr n m (A : 'M[R]_(n, m)) (P : 'M[R]_m) : psd P -> psd (A *m P *m A^T).
Proof. by case=> sP pP; split=> [|v]; [apply: sym_congr|rewrite qf_congr]. Qed.

Lemma psd_gram n m (A : 'M[R]_(n, m)) : psd (A *m A^T).
Proof. by rewrite -[A in A *m _]mulmx1; apply/psd_congr/pd_psd/pd1. Qed.

Lemma pd_congr n (A : 'M[R]_n) (P : 'M[R]_n) : A \in unitmx -> pd P -> pd (A *m P *m A^T).
Proof.
move=> uA [sP pP]; split=> [|v Hv]; first exact: sym_congr.
rewrite qf_congr pP //; apply: contra_neq Hv => H0.
by rewrite -[v](mulKmx (_ : A^T \in unitmx)) ?unitmx_tr // H0 mulmx0.
Qed.

Lemma pd_unit n (M : 'M[R]_n) : pd M -> M \in unitmx.
Proof.
case=> sM pM; rewrite unitmxE unitfE; apply/det0P => -[v Hv HvM].
have Hv' : v^T != 0 by rewrite trmx_eq0.
by have := pM _ Hv'; rewrite /qf trmxK HvM mul0mx mxE ltxx.
Qed.

Lemma inv_uniq n (A X : 'M[R]_n) : A *m X = 1%:M -> X = invmx A.
Proof. by move=> H; have [uA _] := mulmx1_unit H; rewrite -[LHS](mulKmx uA) H mulmx1. Qed.
Lemma inv_mul n (A B : 'M[R]_n) : A \in unitmx -> B \in unitmx -> invmx (A *m B) = invmx B *m invmx A.
Proof. by move=> uA uB; symmetry; apply: inv_uniq; rewrite -mulmxA mulKVmx // mulmxV. Qed.

Lemma sym_inv n (M : 'M[R]_n) : sym M -> sym (invmx M).
Proof. by rewrite /sym trmx_inv => ->. Qed.

Lemma pd_inv n (M : 'M[R]_n) : pd M -> pd (invmx M).
Proof.
move=> pM; have uM := pd_unit pM; have [sM _] := pM.
have -> : invmx M = invmx M *m M *m (invmx M)^T.
  by rewrite (sym_inv sM) mulVmx // mul1mx.
by apply: pd_congr; rewrite ?unitmx_inv.
Qed.

Lemma psd_diag n (M : 'M[R]_n) i : psd M -> 0 <= M i i.
Proof.
case=> _ pM; have := pM (delta_mx i 0); rewrite /qf trmx_delta -rowE -colE.
by rewrite !mxE.
Qed.

Lemma lemx_refl n (A : 'M[R]_n) : lemx A A.
Proof. by rewrite /lemx subrr; apply: psd0. Qed.
Lemma lemx_trans n (A B C : 'M[R]_n) : lemx A B -> lemx B C -> lemx A C.
Proof. by move=> H1 H2; rewrite /lemx -(subrK B C) -addrA; apply: psdD. Qed.
Lemma lemx_anti n (A B : 'M[R]_n) : lemx A B -> lemx B A -> A = B.
Proof.
move=> [s1 p1] [s2 p2]; apply/eqP; rewrite -subr_eq0; apply/eqP.
set D := A - B in s2 p2.
have q0 v : qf D v = 0.
  apply/eqP; rewrite eq_le p2 andbT; have := p1 v.
  by rewrite -[B - A]opprB qfN oppr_ge0.
apply/matrixP => i j; rewrite [RHS]mxE.
have := q0 (delta_mx i 0 + delta_mx j 0); rewrite qf_add !q0 !add0r.
have E a b : ((delta_mx a (0 : 'I_1) : 'cV[R]_n)^T *m D *m (delta_mx b 0 : 'cV[R]_n)) 0 0 = D a b.
  rewrite trmx_delta -rowE.
  by rewrite -colE !mxE.
rewrite !E; have -> : D j i = D i j by rewrite -{1}s2 mxE.
by rewrite -mulr2n => /eqP; rewrite mulrn_eq0 /= => /eqP.
Qed.
Lemma lemx_congr n m (A : 'M[R]_(n, m)) (P Q : 'M[R]_m) : lemx P Q -> lemx (A *m P *m A^T) (A *m Q *m A^T).
Proof. by move=> H; rewrite /lemx -mulmxBl -mulmxBr; apply: psd_congr. Qed.
Lemma lemxD n (A B C D : 'M[R]_n) : lemx A B -> lemx C D -> lemx (A + C) (B + D).
Proof. by move=> H1 H2; rewrite /lemx opprD addrACA; apply: psdD. Qed.
Lemma lemxZ n a (A B : 'M[R]_n) : 0 <= a -> lemx A B -> lemx (a *: A) (a *: B).
Proof. by move=> Ha H; rewrite /lemx -scalerBr; apply: psdZ. Qed.
Lemma lemx_diag n (A B : 'M[R]_n) i : lemx A B -> A i i <= B i i.
Proof. by move/(@psd_diag _ _ i); rewrite !mxE subr_ge0. Qed.

(** ** triangular factors *)
Lemma chol_factor_unit n (L : 'M[R]_n) : chol_factor L -> L \in unitmx.
Proof.
case=> Ht Hd; rewrite unitmxE det_trig; last by apply/is_trig_mxP.
by rewrite unitfE; apply/prodf_neq0 => i _; rewrite gt_eqF.
Qed.

Lemma factor_pd n (L : 'M[R]_n) : L \in unitmx -> pd (L *m L^T).
Proof. by move=> uL; rewrite -[L in L *m _]mulmx1; apply: pd_congr uL (pd1 _). Qed.

Lemma chol_factor_pd n (L : 'M[R]_n) : chol_factor L -> pd (L *m L^T).
Proof. by move/chol_factor_unit/factor_pd. Qed.

Lemma factor_entry n (L : 'M[R]_n) (i j : 'I_n) : (forall p q : 'I_n, (p < q)%N -> L p q = 0) ->
  (L *m L^T) i j = \sum_(k < n | (k < i)%N) L i k * L j k + L i i * L j i.
Proof.
move=> Ht; rewrite mxE (bigID (fun k : 'I_n => (k < i)%N)) /=; congr (_ + _).
  by apply: eq_bigr => k _; rewrite mxE.
rewrite (bigD1 i) /= ?ltnn // mxE big1 ?addr0 // => k /andP[].
rewrite -leqNgt leq_eqVlt => /orP[/eqP/val_inj <-|Hik _]; first by rewrite eqxx.
by rewrite Ht ?mul0r.
Qed.

Lemma chol_factor_unique n (L L' : 'M[R]_n) :
  chol_factor L -> chol_factor L' -> L *m L^T = L' *m L'^T -> L = L'.
Proof.
move=> [Ht Hd] [Ht' Hd'] HE.
suff H : forall q (i : 'I_n), (i < q)%N -> forall j : 'I_n, L j i = L' j i.
  by apply/matrixP => j i; apply: (H n).
elim=> // q IH i; rewrite ltnS leq_eqVlt => /orP[/eqP Hiq|]; last exact: IH.
have Hcol (k : 'I_n) : (k < i)%N -> forall j, L j k = L' j k by rewrite Hiq => Hk j; apply: IH.
have Hsum j : \sum_(k < n | (k < i)%N) L i k * L j k = \sum_(k < n | (k < i)%N) L' i k * L' j k.
  by apply: eq_bigr => k Hk; rewrite !Hcol.
have Hii : L i i = L' i i.
  have : (L *m L^T) i i = (L' *m L'^T) i i by rewrite HE.
  rewrite !factor_entry // Hsum => /addrI; rewrite -!expr2 => /eqP.
  by rewrite eqr_expn2 // ?ltW // => /eqP.
move=> j; have : (L *m L^T) i j = (L' *m L'^T) i j by rewrite HE.
rewrite !factor_entry // Hsum Hii => /addrI /mulfI -> //.
by rewrite gt_eqF.
Qed.

End Psd.
