(** * Cholesky decomposition and inversion over exact arithmetic *)
From Verif Require Import Spec Matrix Wp Kernels Access Chol Inv SpecExact Exact Psd.
From mathcomp Require Import all_ssreflect all_algebra.
Set Implicit Arguments.
Unset Strict Implicit.
Unset Printing Implicit Defensive.
Import Order.TTheory GRing.Theory Num.Theory.
Local Open Scope ring_scope.

Section CholExact.
Variable R : rcfType.
Implicit Types (a b l old new : seq R) (c : cfg).
Local Notation N := (@exact_num R).

(** column [i] of the factor, as equations *)
Definition col_eq n (A L : 'M[R]_n) (i : 'I_n) : Prop :=
  0 < L i i /\ forall j : 'I_n, (i <= j)%N ->
    A i j = \sum_(k < n | (k < i)%N) L i k * L j k + L i i * L j i.

Lemma chol_col_exact c n a l (i : 'I_n) : valid c n n a -> valid c n n l ->
  chol_col N n a l i -> col_eq (mx n n a) (mx n n l) i.
Proof.
move=> Ha Hl [d [s [lv [Hs [Hle [Hsq [Hre [Hc Hj]]]]]]]].
rewrite (csum_exact i i Ha Hl) in Hs; case: Hs => Hs.
move: Hle => /= /negbT; rewrite -ltNge => Hpos.
move: Hsq => /=; rewrite ltNge (ltW Hpos) /= => -[Hsq].
rewrite (cell_mx i i Hl) in Hc; case: Hc => Hc.
have Hl0 : 0 < lv by rewrite -Hsq sqrtr_gt0.
move: Hre => /=; rewrite gt_eqF // => -[Hd].
split=> [|j]; first by rewrite Hc.
rewrite leq_eqVlt => /orP[/eqP/val_inj <-|Hij].
  rewrite Hc; have -> : lv * lv = s by rewrite -Hsq -expr2 sqr_sqrtr // ltW.
  by rewrite -Hs addrCA subrr addr0.
have [s' [v [H1 [H2 H3]]]] := Hj j (conj (ssrnat.ltP Hij) (ssrnat.ltP (ltn_ord j))).
rewrite (csum_exact i j Ha Hl) in H1; case: H1 => H1.
rewrite (cell_mx j i Hl) in H3; case: H3 => H3.
move: H2 => /= -[H2].
rewrite Hc H3 -H2 -Hd mulrCA divff ?gt_eqF // mulr1 -H1.
by rewrite addrCA subrr addr0.
Qed.

Lemma col_eq_factor n (A L : 'M[R]_n) : (forall i, col_eq A L i) ->
  (forall i j : 'I_n, (i < j)%N -> L i j = 0) ->
  chol_factor L /\ forall i j : 'I_n, (i <= j)%N -> (L *m L^T) i j = A i j.
Proof.
move=> Hc Ht; split; first by split=> // i; case: (Hc i).
by move=> i j Hij; rewrite factor_entry //; have [_ ->] := Hc i.
Qed.

Lemma upper_eq n (A B : 'M[R]_n) : sym A -> sym B ->
  (forall i j : 'I_n, (i <= j)%N -> A i j = B i j) -> A = B.
Proof.
move=> sA sB H; apply/matrixP => i j; case: (leqP i j) => [/H //|/ltnW Hji].
by rewrite -sA -sB !mxE H.
Qed.

Lemma gram_sym n m (L : 'M[R]_(n, m)) : sym (L *m L^T).
Proof. by rewrite /sym trmx_mul trmxK. Qed.

(** a non-positive pivot excludes positive definiteness *)
Lemma partial_not_pd n (A L : 'M[R]_n) (i : 'I_n) : sym A ->
  (forall k : 'I_n, (k < i)%N -> col_eq A L k) ->
  A i i - \sum_(k < n | (k < i)%N) L i k * L i k <= 0 -> ~ pd A.
Proof.
move=> sA Hc Hv [_ pA].
pose M : 'M[R]_n := \matrix_(p, q) if (q < i)%N then (if (q <= p)%N then L p q else 0) else (p == q)%:R.
pose Mi : 'M[R]_n := \matrix_(p, q) if (q < i)%N && (q <= p)%N then L p q else 0.
have fM : chol_factor M.
  split=> [p q Hpq|p]; rewrite mxE; first by rewrite [(q <= p)%N]leqNgt Hpq /= -val_eqE /= ltn_eqF // if_same.
  by case: ifP => [Hp|_]; [rewrite leqnn; have [] := Hc p Hp|rewrite eqxx ltr01].
have uM := chol_factor_unit fM.
pose w : 'cV[R]_n := invmx M^T *m delta_mx i 0.
have Hw : M^T *m w = delta_mx i 0 by rewrite mulKVmx // unitmx_tr.
have Mw (q : 'I_n) : \sum_p M p q * w p 0 = (q == i)%:R.
  have := congr1 (fun X : 'cV_n => X q 0) Hw; rewrite !mxE eqxx andbT => <-.
  by apply: eq_bigr => p _; rewrite [M^T q p]mxE.
have wge (k : 'I_n) : (i <= k)%N -> w k 0 = (k == i)%:R.
  move=> Hk; rewrite -(Mw k) (bigD1 k) //= [M k k]mxE ltnNge Hk /= eqxx mul1r big1 ?addr0 // => p Hp.
  by rewrite mxE ltnNge Hk /= (negbTE Hp) mul0r.
have Miw : Mi^T *m w = 0.
  apply/matrixP => q z; rewrite ord1 [RHS]mxE mxE; case: (ltnP q i) => Hq.
    rewrite -[RHS](_ : (q == i)%:R = 0); last by rewrite -val_eqE /= ltn_eqF.
    rewrite -(Mw q); apply: eq_bigr => p _; rewrite [Mi^T q p]mxE mxE [M p q]mxE Hq /=.
    by case: ifP.
  by rewrite big1 // => p _; rewrite [Mi^T q p]mxE mxE ltnNge Hq mul0r.
pose B := A - Mi *m Mi^T.
have sB : sym B by rewrite /sym linearB /= sA gram_sym.
have Blo (p q : 'I_n) : (p < i)%N -> (p <= q)%N -> B p q = 0.
  move=> Hp Hpq; have [_ /(_ q Hpq) HA] := Hc p Hp.
  rewrite !mxE HA; apply/eqP; rewrite subr_eq0; apply/eqP.
  rewrite [RHS](bigID (fun k : 'I_n => (k < p)%N)) /=; congr (_ + _).
    apply: eq_bigr => k Hk; rewrite [Mi^T _ _]mxE !mxE (ltn_trans Hk Hp) /= (ltnW Hk).
    by rewrite (ltnW (leq_trans Hk Hpq)).
  rewrite (bigD1 p) /= ?ltnn // big1 ?addr0 => [|k /andP[]].
    by rewrite [Mi^T _ _]mxE !mxE Hp leqnn Hpq.
  rewrite -leqNgt leq_eqVlt => /orP[/eqP/val_inj <-|Hpk _]; first by rewrite eqxx.
  by rewrite mxE [(k <= p)%N]leqNgt Hpk andbF mul0r.
have B0 (p q : 'I_n) : (p < i)%N || (q < i)%N -> B p q = 0.
  move=> H; case: (leqP p q) => Hpq.
    by apply: Blo => //; case/orP: H => // /(leq_ltn_trans Hpq).
  rewrite -sB mxE; apply: Blo; last exact: ltnW.
  by case/orP: H => // /(ltn_trans Hpq).
have Bii : B i i <= 0.
  rewrite !mxE; apply: le_trans Hv; rewrite ler_add2l ler_opp2 le_eqVlt; apply/orP; left; apply/eqP.
  rewrite [RHS](bigID (fun k : 'I_n => (k < i)%N)) /= [X in _ + X]big1 ?addr0.
    by apply: eq_bigr => k Hk; rewrite [Mi^T _ _]mxE !mxE Hk (ltnW Hk).
  by move=> k; rewrite -leqNgt => Hk; rewrite mxE ltnNge Hk /= mul0r.
have Hw0 : w != 0.
  apply/eqP => H0; have := wge i (leqnn i); rewrite H0 mxE eqxx => /eqP.
  by rewrite eq_sym oner_eq0.
have := pA w Hw0; rewrite ltNge => /negP; apply.
have -> : A = B + Mi *m 1%:M *m Mi^T by rewrite mulmx1 subrK.
rewrite qfD qf_congr Miw qf_0 addr0 /qf mxE (bigD1 i) //= big1 ?addr0 => [|q Hq]; last first.
  case: (ltnP q i) => Hqi.
    by rewrite mxE big1 ?mul0r // => p _; rewrite (B0 p q) ?Hqi ?orbT // mulr0.
  by rewrite wge // (negbTE Hq) mulr0.
rewrite wge // eqxx mulr1 mxE (bigD1 i) //= big1 ?addr0 => [|p Hp].
  by rewrite mxE wge // eqxx mul1r.
case: (ltnP p i) => Hpi; first by rewrite (B0 p i) ?Hpi // mulr0.
by rewrite mxE wge // (negbTE Hp) mul0r.
Qed.

(** ** the decomposition *)
Lemma cholesky_exact c n a : (0 < n)%N -> valid c n n a ->
  exists ok l, cholesky_decompose_lower c N n n a = Ok (ok, l) /\ valid c n n l /\ same_tail n n a l /\
    (ok = true -> chol_factor (mx n n l) /\
       forall i j : 'I_n, (i <= j)%N -> (mx n n l *m (mx n n l)^T) i j = mx n n a i j) /\
    (ok = false -> sym (mx n n a) -> ~ pd (mx n n a)).
Proof.
move=> /ssrnat.leP Hn Ha; have := cholesky_spec c N n a Hn Ha.
case: (cholesky_decompose_lower c N n n a) => [[[] l]|e] H.
- case: (H) => [Ht [Hcol Hz]]; have Hl : valid c n n l by apply: valid_length Ha (proj1 Ht).
  exists true, l; do 3 split => //; split=> // _; apply: col_eq_factor.
    by move=> i; apply: chol_col_exact Ha Hl (Hcol i (ssrnat.ltP (ltn_ord i))).
  move=> i j Hij; have := Hz i j (conj (ssrnat.ltP Hij) (ssrnat.ltP (ltn_ord j))).
  by move=> /mx_cell.
- case: (H) => [Ht [i [/ssrnat.ltP Hi [Hcol [v [Hs Hle]]]]]].
  have Hl : valid c n n l by apply: valid_length Ha (proj1 Ht).
  exists false, l; do 3 split => //; split=> // _ sA.
  apply: (@partial_not_pd n _ (mx n n l) (Ordinal Hi)) => //.
    by move=> k Hk; apply: chol_col_exact Ha Hl (Hcol k (ssrnat.ltP Hk)).
  by have := @csum_exact R c n a l (Ordinal Hi) (Ordinal Hi) Ha Hl; rewrite Hs => -[<-].
- by case: H => _ []; apply: exact_total.
Qed.

Lemma cholesky_sym c n a : (0 < n)%N -> valid c n n a -> sym (mx n n a) ->
  exists ok l, cholesky_decompose_lower c N n n a = Ok (ok, l) /\ valid c n n l /\ same_tail n n a l /\
    (ok = true <-> pd (mx n n a)) /\
    (ok = true -> chol_factor (mx n n l) /\ mx n n l *m (mx n n l)^T = mx n n a).
Proof.
move=> Hn Ha sA; have [ok [l [H1 [H2 [H3 [H4 H5]]]]]] := cholesky_exact Hn Ha.
have H6 : ok = true -> chol_factor (mx n n l) /\ mx n n l *m (mx n n l)^T = mx n n a.
  by move=> Hok; have [F1 F2] := H4 Hok; split=> //; apply: upper_eq => //; apply: gram_sym.
exists ok, l; do 3 split => //; split=> //; split.
  by move=> Hok; have [F1 <-] := H6 Hok; apply: chol_factor_pd.
by move=> pA; case: ok H5 {H1 H4 H6} => // /(_ erefl sA).
Qed.

(** ** the inversion *)
Lemma osum_exact lo cnt (f : nat -> option R) (F : nat -> R) :
  (forall k, (lo <= k < lo + cnt)%N -> f k = Some (F k)) ->
  osum N lo cnt f = Some (\sum_(lo <= k < lo + cnt) F k).
Proof.
elim: cnt => [|cnt IH] Hf; first by rewrite big_geq ?addn0.
rewrite /= IH => [|k /andP[H1 H2]]; last by apply: Hf; rewrite H1 (ltn_trans H2) // ltn_add2l.
rewrite plusE (Hf (lo + cnt)%N) ?leq_addr ?ltn_add2l //=.
by rewrite addnS big_nat_recr /= ?leq_addr.
Qed.

Lemma isum_exact n lo cnt (m x : nat -> option R) (F G : 'I_n -> R) :
  (lo + cnt <= n)%N ->
  (forall k : 'I_n, (lo <= k < lo + cnt)%N -> m k = Some (F k)) ->
  (forall k : 'I_n, (lo <= k < lo + cnt)%N -> x k = Some (G k)) ->
  isum N lo cnt m x = Some (- \sum_(k < n | (lo <= k < lo + cnt)%N) F k * G k).
Proof.
case: n F G => [|n] F G Hn HF HG.
  move: Hn; rewrite leqn0 addn_eq0 => /andP[/eqP -> /eqP ->] /=.
  by rewrite big_ord0 oppr0.
rewrite /isum (@osum_exact _ _ _ (fun k => - F (inord k) * G (inord k))).
  congr Some; rewrite (big_nat_widen _ _ n.+1) // big_geq_mkord -sumrN.
  apply: eq_big => [k|k _]; first by rewrite andbC.
  by rewrite inord_val mulNr.
move=> k Hk; have Hkn : (k < n.+1)%N by case/andP: Hk => _ /leq_trans ->.
by rewrite -[k in m k]/(val (Ordinal Hkn)) -[k in x k]/(val (Ordinal Hkn)) (HF (Ordinal Hkn)) // (HG (Ordinal Hkn)) //= 
  (_ : Ordinal Hkn = inord k) //; apply: val_inj; rewrite /= inordK.
Qed.

Lemma recip_mulr (x r : R) : o_recip N x = Some r -> x * r = 1.
Proof. by move=> /=; case: eqP => // /eqP Hx [<-]; rewrite divff. Qed.

(** first loop: a left inverse *)
Definition Zmx n (Y : seq R) : 'M[R]_n := \matrix_(k, j) if (j <= k)%N then mx n n Y j k else 0.

Lemma inv1_exact c n l Y : valid c n n l -> valid c n n Y ->
  (forall i j : 'I_n, (i < j)%N -> mx n n l i j = 0) ->
  (forall i, Peano.lt i n -> inv1_col N n l Y i) -> mx n n l *m Zmx n Y = 1%:M.
Proof.
move=> Hl HY Ht H1; apply/matrixP => i j; rewrite mxE [RHS]mxE.
have [lv [r [Hlv [Hr HE]]]] := H1 i (ssrnat.ltP (ltn_ord i)).
rewrite (cell_mx i i Hl) in Hlv; case: Hlv => Hlv.
case: (leqP j i) => Hji; last first.
  rewrite -val_eqE /= ltn_eqF // big1 // => k _; rewrite [Zmx n Y k j]mxE.
  case: leqP => Hjk; last by rewrite mulr0.
  by rewrite Ht ?mul0r // (leq_trans Hji Hjk).
have [s [w [v [E1 [E2 [E3 E4]]]]]] := HE j (ssrnat.leP Hji).
rewrite (@isum_exact n j (i - j) _ _ (fun k => mx n n l i k) (fun k => mx n n Y j k)) in E1.
- case: E1 => E1; rewrite (cell_mx j i HY) in E4; case: E4 => E4.
  move: E2 E3 => /= -[E2] [E3].
  rewrite (bigD1 i) //= [Zmx n Y i j]mxE Hji E4 -E3 Hlv mulrCA (recip_mulr Hr) mulr1 -E2.
  have -> : (\sum_(k < n | k != i) mx n n l i k * Zmx n Y k j) = - s.
    rewrite -E1 opprK (bigID (fun k : 'I_n => (j <= k < j + (i - j))%N)) /= [X in _ + X]big1 ?addr0 => [|k].
      apply: eq_big => k; rewrite subnKC //.
        rewrite andbC; case: (altP (k =P i)) => [->|]; first by rewrite ltnn !andbF.
        by rewrite andbT.
      by move=> /andP[_ /andP[Hjk _]]; rewrite [Zmx n Y k j]mxE Hjk.
    rewrite subnKC // negb_and -!leqNgt -ltnNge => /andP[Hki /orP[Hkj|Hik]].
      by rewrite [Zmx n Y k j]mxE leqNgt Hkj mulr0.
    by rewrite Ht ?mul0r // ltn_neqAle Hik andbT eq_sym.
  rewrite addrK; case: Nat.eqb_spec => [/val_inj ->|Hne]; first by rewrite eqxx.
  by rewrite (negbTE (_ : i != j)) //; apply/eqP => Hij; apply: Hne; rewrite Hij.
- by rewrite subnKC // ltnW.
- by move=> k _; apply: (cell_mx _ _ _); eassumption.
- by move=> k _; apply: (cell_mx _ _ _); eassumption.
Qed.

Lemma inv2_exact c n l Y X : valid c n n l -> valid c n n Y -> valid c n n X ->
  (forall i j : 'I_n, (i < j)%N -> mx n n l i j = 0) ->
  (forall i, Peano.lt i n -> inv2_row N n l Y X i) ->
  sym (mx n n X) /\ forall i j : 'I_n, (j <= i)%N -> ((mx n n l)^T *m mx n n X) i j = Zmx n Y i j.
Proof.
move=> Hl HY HX Ht H2.
have Hs : sym (mx n n X).
  apply/matrixP => i j; rewrite mxE.
  have aux (p q : 'I_n) : (q <= p)%N -> mx n n X p q = mx n n X q p.
    move=> Hqp; have [lv [r [_ [_ HE]]]] := H2 p (ssrnat.ltP (ltn_ord p)).
    have [y [s [w [v [_ [_ [_ [_ [E1 E2]]]]]]]]] := HE q (ssrnat.leP Hqp).
    by rewrite (mx_cell E1) (mx_cell E2).
  by case: (leqP i j) => [|/ltnW] /aux.
split=> // i j Hji.
have [lv [r [Hlv [Hr HE]]]] := H2 i (ssrnat.ltP (ltn_ord i)).
rewrite (cell_mx i i Hl) in Hlv; case: Hlv => Hlv.
have [y [s [w [v [E0 [E1 [E2 [E3 [E4 _]]]]]]]]] := HE j (ssrnat.leP Hji).
rewrite (@isum_exact n i.+1 (n - i.+1) _ _ (fun k => mx n n l k i) (fun k => mx n n X j k)) in E1.
- case: E1 => E1; rewrite (cell_mx j i HY) in E0; case: E0 => E0.
  rewrite (cell_mx i j HX) in E4; case: E4 => E4.
  move: E2 E3 => /= -[E2] [E3].
  rewrite [RHS]mxE Hji E0 mxE (bigD1 i) //= [(_ ^T) i i]mxE E4 -E3 Hlv mulrCA (recip_mulr Hr) mulr1 -E2.
  have -> : (\sum_(k < n | k != i) (mx n n l)^T i k * mx n n X k j) = - s.
    rewrite -E1 opprK (bigID (fun k : 'I_n => (i < k)%N)) /= [X in _ + X]big1 ?addr0 => [|k].
      apply: eq_big => k; first rewrite subnKC //.
        rewrite ltn_ord andbT andbC; case: (ltnP i k) => //= Hik.
        by apply/eqP => Hki; rewrite Hki ltnn in Hik.
      by move=> _; congr (_ * _); [rewrite mxE|rewrite -[in LHS]Hs mxE].
    rewrite -leqNgt => /andP[Hki Hik]; rewrite mxE Ht ?mul0r // ltn_neqAle Hik andbT.
    by rewrite val_eqE.
  by rewrite addrK.
- by rewrite subnKC.
- by move=> k _; apply: (cell_mx _ _ _); eassumption.
- by move=> k _; apply: (cell_mx _ _ _); eassumption.
Qed.

(** the triangular argument: a symmetric X with L^T X = L^-1 on and below the diagonal is the inverse *)
Lemma tri_inverse n (L Z X : 'M[R]_n) :
  (forall i j : 'I_n, (i < j)%N -> Z i j = 0) -> L *m Z = 1%:M -> sym X ->
  (forall i j : 'I_n, (j <= i)%N -> (L^T *m X) i j = Z i j) ->
  X = Z^T *m Z.
Proof.
move=> Zt LZ sX HX; pose U := L^T *m X - Z.
have Ut (i j : 'I_n) : (j <= i)%N -> U i j = 0 by move=> Hji; rewrite /U mxE HX // mxE subrr.
have ZtL : Z^T *m L^T = 1%:M by rewrite -trmx_mul LZ trmx1.
have XE : X = Z^T *m Z + Z^T *m U by rewrite -mulmxDr addrC subrK mulmxA ZtL mul1mx.
have sD : (Z^T *m U)^T = Z^T *m U.
  have -> : Z^T *m U = X - Z^T *m Z by rewrite XE addrC addKr.
  by rewrite linearB /= sX trmx_mul trmxK.
have D0 (i j : 'I_n) : (j <= i)%N -> (Z^T *m U) i j = 0.
  move=> Hji; rewrite mxE big1 // => k _; case: (leqP j k) => Hjk.
    by rewrite (Ut k j Hjk) mulr0.
  by rewrite mxE Zt ?mul0r // (leq_trans Hjk Hji).
have ZU0 : Z^T *m U = 0; last by rewrite XE ZU0 addr0.
apply/matrixP => i j; rewrite [RHS]mxE; case: (leqP j i) => [/D0 //|/ltnW Hij].
by rewrite -sD mxE D0.
Qed.

Lemma invert_exact c n l inv0 : (0 < n)%N -> valid c n n l -> valid c n n inv0 ->
  chol_factor (mx n n l) ->
  exists X, invert_l_cholesky c N n l inv0 = Ok X /\ valid c n n X /\ same_tail n n inv0 X /\
    mx n n X = invmx (mx n n l *m (mx n n l)^T).
Proof.
move=> /ssrnat.leP Hn Hl Hv [Ht Hd].
have Hdr : diag_recip N n l.
  move=> i lv /ssrnat.ltP Hi /(mx_cell (i := Ordinal Hi) (j := Ordinal Hi)) <- /=.
  by rewrite gt_eqF.
have := phase1_spec c N n l inv0 Hl Hv; rewrite /invert_l_cholesky.
case: (invert_phase1 _ _ _ _ _) => [Y|e] /= [H1 H2]; last by case: H2; split=> //; apply: exact_total.
have HY : valid c n n Y by apply: valid_length Hv (proj1 H1).
have := phase2_spec c N n l Y Hn Hl HY.
case: (invert_phase2 _ _ _ _ _) => [X|e] /= [H3 H4]; last by case: H4; split=> //; apply: exact_total.
have HX : valid c n n X by apply: valid_length HY (proj1 H3).
exists X; split=> //; split=> //; split.
  by case: H1 H3 => [A1 A2] [B1 B2]; split=> [|p Hp]; rewrite ?B1 // B2 // A2.
have LZ := inv1_exact Hl HY Ht H2.
have [sX LX] := inv2_exact Hl HY HX Ht H4.
have Zt (i j : 'I_n) : (i < j)%N -> Zmx n Y i j = 0 by move=> Hij; rewrite mxE leqNgt Hij.
have uL := chol_factor_unit (conj Ht Hd).
rewrite (tri_inverse Zt LZ sX LX).
have -> : Zmx n Y = invmx (mx n n l) by rewrite -[LHS](mulKmx uL) LZ mulmx1.
by rewrite trmx_inv inv_mul // unitmx_tr.
Qed.

(** decomposition then inversion *)
Lemma cholesky_invert_exact c n a inv0 : (0 < n)%N -> valid c n n a -> valid c n n inv0 -> pd (mx n n a) ->
  exists l X, cholesky_decompose_lower c N n n a = Ok (true, l) /\ valid c n n l /\ same_tail n n a l /\
    invert_l_cholesky c N n l inv0 = Ok X /\ valid c n n X /\ same_tail n n inv0 X /\
    mx n n X = invmx (mx n n a).
Proof.
move=> Hn Ha Hv pA; have [sA _] := pA.
have [ok [l [H1 [H2 [H3 [H4 H5]]]]]] := cholesky_sym Hn Ha sA.
have Hok : ok = true by apply/H4.
rewrite Hok in H1; have [F1 F2] := H5 Hok.
have [X [X1 [X2 [X3 X4]]]] := invert_exact Hn H2 Hv F1.
by exists l, X; do 6 split => //; rewrite X4 F2.
Qed.

End CholExact.
