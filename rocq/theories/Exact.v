(** * The kernels over exact arithmetic are matrix algebra *)
From Verif Require Import Spec Matrix Wp Kernels Access Chol Inv SpecExact.
From mathcomp Require Import all_ssreflect all_algebra.
Set Implicit Arguments.
Unset Strict Implicit.
Unset Printing Implicit Defensive.
Import Order.TTheory GRing.Theory Num.Theory.
Local Open Scope ring_scope.

Section Exact.
Variable R : rcfType.
Implicit Types (a b l old new : seq R) (c : cfg).
Local Notation N := (@exact_num R).

Lemma nth_error_nth (l : seq R) p v : nth_error l p = Some v -> nth 0 l p = v.
Proof. by elim: l p => [|x l IH] [|p] //=; [case|apply: IH]. Qed.

Lemma cell_nth n l i j v : cell n l i j = Some v -> nth 0 l (i * n + j)%N = v.
Proof. exact: nth_error_nth. Qed.

Lemma mx_cell m n l (i : 'I_m) (j : 'I_n) v : cell n l i j = Some v -> mx m n l i j = v.
Proof. by rewrite mxE; apply: cell_nth. Qed.

Lemma cell_mx c m n l (i : 'I_m) (j : 'I_n) : valid c m n l -> cell n l i j = Some (mx m n l i j).
Proof.
move=> Hv; have [v [Hc _]] := cell_some c m n l i j Hv (ssrnat.ltP (ltn_ord i)) (ssrnat.ltP (ltn_ord j)).
by rewrite Hc (mx_cell Hc).
Qed.

Lemma cell_nat c m n l i j (Hi : (i < m)%N) (Hj : (j < n)%N) : valid c m n l ->
  cell n l i j = Some (mx m n l (Ordinal Hi) (Ordinal Hj)).
Proof. by move=> Hv; rewrite -(cell_mx (Ordinal Hi) (Ordinal Hj) Hv). Qed.

Lemma dot_exact K (f g : nat -> option R) (F G : 'I_K -> R) :
  (forall k : 'I_K, f k = Some (F k)) -> (forall k : 'I_K, g k = Some (G k)) ->
  dot N K f g = Some (\sum_k F k * G k).
Proof.
elim: K F G => [|K IH] F G HF HG; first by rewrite big_ord0.
rewrite /= (IH (fun k => F (widen_ord (leqnSn K) k)) (fun k => G (widen_ord (leqnSn K) k))).
- by rewrite big_ord_recr /= (HF ord_max) (HG ord_max) /=.
- by move=> k; rewrite -HF.
- by move=> k; rewrite -HG.
Qed.

Lemma dot1_exact K (f g : nat -> option R) (F G : 'I_K.+1 -> R) :
  (forall k : 'I_K.+1, f k = Some (F k)) -> (forall k : 'I_K.+1, g k = Some (G k)) ->
  dot1 N K.+1 f g = Some (\sum_k F k * G k).
Proof.
elim: K F G => [|K IH] F G HF HG.
  by rewrite big_ord_recl big_ord0 addr0 /= (HF ord0) (HG ord0).
rewrite dot1_S (IH (fun k => F (widen_ord (leqnSn K.+1) k)) (fun k => G (widen_ord (leqnSn K.+1) k))).
- by rewrite [in RHS]big_ord_recr /= (HF ord_max) (HG ord_max) /=.
- by move=> k; rewrite -HF.
- by move=> k; rewrite -HG.
Qed.

(** from the cell-wise description to a matrix equation *)
Lemma cellwise_mx c m n old f (r : res (seq R)) (M : 'M[R]_(m, n)) :
  valid c m n old -> cellwise m n old f r ->
  (forall (i : 'I_m) (j : 'I_n), f i j (mx m n old i j) = Some (M i j)) ->
  exists new, r = Ok new /\ valid c m n new /\ same_tail m n old new /\ mx m n new = M.
Proof.
move=> Hv; case: r => [new|e] /= Hc HM.
- case: Hc => [H1 [H2 H3]].
  have Hv' : valid c m n new by apply: valid_length Hv H1.
  exists new; do ?split => //; try by case: Hv'.
  apply/matrixP => i j.
  have := H2 i j (mx m n old i j) (ssrnat.ltP (ltn_ord i)) (ssrnat.ltP (ltn_ord j)) (cell_mx i j Hv).
  by rewrite HM => /mx_cell.
- exfalso; case: Hc => [_ [i [j [v [/ssrnat.ltP Hi [/ssrnat.ltP Hj [Hcell Hn]]]]]]].
  have := HM (Ordinal Hi) (Ordinal Hj).
  rewrite (cell_nat Hi Hj Hv) in Hcell; case: Hcell => ->.
  by rewrite /= Hn.
Qed.

Lemma mult_mx c m k u a b cm : valid c m k a -> valid c k u b -> valid c m u cm ->
  exists cm', mult c N m k u a b cm = Ok cm' /\ valid c m u cm' /\ same_tail m u cm cm' /\
    mx m u cm' = mx m k a *m mx k u b.
Proof.
move=> Ha Hb Hc; apply: cellwise_mx Hc (mult_cellwise _ _ _ _ _ _ _ _ Ha Hb Hc) _ => i j.
rewrite (@dot_exact _ _ _ (fun q => mx m k a i q) (fun q => mx k u b q j)); first by rewrite mxE.
- by move=> q; apply: (cell_mx _ _ _); eassumption.
- by move=> q; apply: (cell_mx _ _ _); eassumption.
Qed.

Lemma gen_transb_mx c st store m k u a b cm (M : 'M[R]_(m, u)) :
  (forall o t, store o t = of_opt (st o t)) ->
  valid c m k a -> valid c u k b -> valid c m u cm ->
  (forall i j, st (mx m u cm i j) ((mx m k a *m (mx u k b)^T) i j) = Some (M i j)) ->
  exists cm', gen_mult_transb c N store m k u a b cm = Ok cm' /\ valid c m u cm' /\ same_tail m u cm cm' /\
    mx m u cm' = M.
Proof.
move=> Hst Ha Hb Hc HM; apply: cellwise_mx Hc (gen_mult_transb_cellwise _ _ _ _ _ _ _ _ _ _ Hst Ha Hb Hc) _ => i j /=.
rewrite (@dot_exact _ _ _ (fun q => mx m k a i q) (fun q => (mx u k b)^T q j)) /=.
- by rewrite -HM [(_ *m _) i j]mxE.
- by move=> q; apply: (cell_mx _ _ _); eassumption.
- by move=> q; rewrite mxE; apply: (cell_mx _ _ _); eassumption.
Qed.

Lemma mult_transb_mx c m k u a b cm : valid c m k a -> valid c u k b -> valid c m u cm ->
  exists cm', mult_transb c N m k u a b cm = Ok cm' /\ valid c m u cm' /\ same_tail m u cm cm' /\
    mx m u cm' = mx m k a *m (mx u k b)^T.
Proof. by move=> Ha Hb Hc; apply: (@gen_transb_mx _ (fun _ t => Some t)) Ha Hb Hc _. Qed.

Lemma multadd_transb_mx c m k u a b cm : valid c m k a -> valid c u k b -> valid c m u cm ->
  exists cm', multadd_transb c N m k u a b cm = Ok cm' /\ valid c m u cm' /\ same_tail m u cm cm' /\
    mx m u cm' = mx m u cm + mx m k a *m (mx u k b)^T.
Proof.
move=> Ha Hb Hc; apply: (@gen_transb_mx _ (o_add N)) Ha Hb Hc _ => // i j.
by rewrite [in RHS]mxE.
Qed.

Lemma multscale_transb_mx c s m k u a b cm : valid c m k a -> valid c u k b -> valid c m u cm ->
  exists cm', multscale_transb c N s m k u a b cm = Ok cm' /\ valid c m u cm' /\ same_tail m u cm cm' /\
    mx m u cm' = s *: (mx m k a *m (mx u k b)^T).
Proof.
move=> Ha Hb Hc; apply: (@gen_transb_mx _ (fun _ t => o_mul N t s)) Ha Hb Hc _ => // i j /=.
by rewrite [in RHS]mxE mulrC.
Qed.

Lemma gen_rowvector_mx c st store m k a x cm (M : 'cV[R]_m) :
  (forall o t, store o t = of_opt (st o t)) -> (0 < k)%N ->
  valid c m k a -> valid c k 1 x -> valid c m 1 cm ->
  (forall i j, st (mx m 1 cm i j) ((mx m k a *m mx k 1 x) i j) = Some (M i j)) ->
  exists cm', gen_mult_rowvector c N store m k a x cm = Ok cm' /\ valid c m 1 cm' /\ same_tail m 1 cm cm' /\
    mx m 1 cm' = M.
Proof.
case: k => // k Hst _ Ha Hb Hc HM.
apply: cellwise_mx Hc (gen_mult_rowvector_cellwise _ _ _ _ _ _ _ _ _ Hst _ Ha Hb Hc) _; first exact/ssrnat.leP.
move=> i j.
rewrite (@dot1_exact _ _ _ (fun q => mx m k.+1 a i q) (fun q => mx k.+1 1 x q j)) /=.
- by rewrite -HM [(_ *m _) i j]mxE.
- by move=> q; apply: (cell_mx _ _ _); eassumption.
- by move=> q; rewrite !ord1 -[X in cell _ _ _ X]/(nat_of_ord (ord0 : 'I_1)); apply: (cell_mx _ _ _); eassumption.
Qed.

Lemma mult_rowvector_mx c m k a x cm : (0 < k)%N -> valid c m k a -> valid c k 1 x -> valid c m 1 cm ->
  exists cm', mult_rowvector c N m k a x cm = Ok cm' /\ valid c m 1 cm' /\ same_tail m 1 cm cm' /\
    mx m 1 cm' = mx m k a *m mx k 1 x.
Proof. by move=> Hk Ha Hb Hc; apply: (@gen_rowvector_mx _ (fun _ t => Some t)) Ha Hb Hc _. Qed.

Lemma multadd_rowvector_mx c m k a x cm : (0 < k)%N -> valid c m k a -> valid c k 1 x -> valid c m 1 cm ->
  exists cm', multadd_rowvector c N m k a x cm = Ok cm' /\ valid c m 1 cm' /\ same_tail m 1 cm cm' /\
    mx m 1 cm' = mx m 1 cm + mx m k a *m mx k 1 x.
Proof.
move=> Hk Ha Hb Hc; apply: (@gen_rowvector_mx _ (o_add N)) Ha Hb Hc _ => // i j.
by rewrite [in RHS]mxE.
Qed.


Lemma m_sub_mx c m n a b cm : valid c m n a -> valid c m n b -> valid c m n cm ->
  exists cm', m_sub c N m n a b cm = Ok cm' /\ valid c m n cm' /\ same_tail m n cm cm' /\
    mx m n cm' = mx m n a - mx m n b.
Proof.
move=> Ha Hb Hc; apply: cellwise_mx Hc (m_sub_cellwise _ _ _ _ _ _ _ Ha Hb Hc) _ => i j.
by rewrite (cell_mx i j Ha) (cell_mx i j Hb) /= !mxE.
Qed.

Lemma add_inplace_b_mx c m n a b : valid c m n a -> valid c m n b ->
  exists b', add_inplace_b c N m n a b = Ok b' /\ valid c m n b' /\ same_tail m n b b' /\
    mx m n b' = mx m n b + mx m n a.
Proof.
move=> Ha Hb; apply: cellwise_mx Hb (add_inplace_b_cellwise _ _ _ _ _ _ Ha Hb) _ => i j.
by rewrite (cell_mx i j Ha) /= !mxE.
Qed.

Lemma sub_inplace_b_mx c m n a b : valid c m n a -> valid c m n b ->
  exists b', sub_inplace_b c N m n a b = Ok b' /\ valid c m n b' /\ same_tail m n b b' /\
    mx m n b' = mx m n a - mx m n b.
Proof.
move=> Ha Hb; apply: cellwise_mx Hb (sub_inplace_b_cellwise _ _ _ _ _ _ Ha Hb) _ => i j.
by rewrite (cell_mx i j Ha) /= !mxE.
Qed.

Lemma add_inplace_a_mx c m n a b : valid c m n a -> valid c m n b ->
  exists a', add_inplace_a c N m n a b = Ok a' /\ valid c m n a' /\ same_tail m n a a' /\
    mx m n a' = mx m n a + mx m n b.
Proof.
move=> Ha Hb; apply: cellwise_mx Ha (add_inplace_a_cellwise _ _ _ _ _ _ Ha Hb) _ => i j.
by rewrite (cell_mx i j Hb) /= !mxE.
Qed.

Lemma sub_inplace_a_mx c m n a b : valid c m n a -> valid c m n b ->
  exists a', sub_inplace_a c N m n a b = Ok a' /\ valid c m n a' /\ same_tail m n a a' /\
    mx m n a' = mx m n a - mx m n b.
Proof.
move=> Ha Hb; apply: cellwise_mx Ha (sub_inplace_a_cellwise _ _ _ _ _ _ Ha Hb) _ => i j.
by rewrite (cell_mx i j Hb) /= !mxE.
Qed.

Lemma copy_to_mx c m n a b : (0 < m)%N -> (0 < n)%N -> valid c m n a -> valid c m n b ->
  exists b', copy_to c m n a b = Ok b' /\ valid c m n b' /\ same_tail m n b b' /\
    mx m n b' = mx m n a.
Proof.
move=> /ssrnat.leP Hm /ssrnat.leP Hn Ha Hb; apply: cellwise_mx Hb (copy_to_cellwise _ _ _ _ _ Hm Hn Ha Hb) _ => i j.
by rewrite (cell_mx i j Ha).
Qed.

(** ** Cholesky *)

Lemma exact_total : num_total N.
Proof.
split=> [//|]; split=> [//|]; split=> [//|]; split=> [//|] s /=.
rewrite leNgt => /negbFE Hs.
exists (Num.sqrt s); rewrite ltNge (ltW Hs) /=; split => //.
by rewrite sqrtr_eq0 leNgt Hs.
Qed.

Lemma subdot_exact K (x : R) (f g : nat -> option R) (F G : 'I_K -> R) :
  (forall k : 'I_K, f k = Some (F k)) -> (forall k : 'I_K, g k = Some (G k)) ->
  subdot N K x f g = Some (x - \sum_k F k * G k).
Proof.
elim: K F G => [|K IH] F G HF HG; first by rewrite big_ord0 subr0.
rewrite /= (IH (fun k => F (widen_ord (leqnSn K) k)) (fun k => G (widen_ord (leqnSn K) k))).
- by rewrite big_ord_recr /= (HF ord_max) (HG ord_max) /= opprD addrA.
- by move=> k; rewrite -HF.
- by move=> k; rewrite -HG.
Qed.

(** sums over the first [i] of [n] indices *)
Lemma sum_widen n i (Hi : (i <= n)%N) (F : 'I_n -> R) :
  \sum_(k < i) F (widen_ord Hi k) = \sum_(k < n | (k < i)%N) F k.
Proof. by rewrite (big_ord_narrow Hi). Qed.

Lemma csum_exact c n a l (i j : 'I_n) : valid c n n a -> valid c n n l ->
  csum N n a l i j = Some (mx n n a i j - \sum_(k < n | (k < i)%N) mx n n l i k * mx n n l j k).
Proof.
move=> Ha Hl; rewrite /csum (cell_mx i j Ha) /=.
rewrite (@subdot_exact _ _ _ _ (fun k => mx n n l i (widen_ord (ltnW (ltn_ord i)) k))
  (fun k => mx n n l j (widen_ord (ltnW (ltn_ord i)) k))).
- by rewrite (big_ord_narrow (ltnW (ltn_ord i))).
- by move=> k; rewrite -(cell_mx i _ Hl).
- by move=> k; rewrite -(cell_mx j _ Hl).
Qed.

End Exact.
