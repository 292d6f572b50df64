(** * The inverse computed from a fixed-point Cholesky factor *)
From Coq Require Import ZArith QArith Qabs Reals Qreals Lia Lra Psatz.
From Verif Require Import Prelude Spec SpecBits SpecDefined Matrix Filter SpecFilter Kernels FixedNum SpecFixed SpecFixedRange SpecFixedFactor SpecReal SpecSolve SpecFixedSolve SpecFixedInv
  NumSim BitsProof Chol Inv Defined FixedProof FixedRange FixedScalar FixedChol FloatErr FloatPredict FloatForward FloatRange RealSchur RealTri RealInverse FloatSolvable FloatInv RealSubst FixedSolve.
Open Scope R_scope.

Section Entry.
Variables (bits frac : Z).
Hypothesis Hf : (0 <= frac)%Z.
Notation NC := (fx_num bits frac true true).
Notation NU := (unlimited frac).
Notation v z := (Q2R (fval frac z)).
Notation w := (fx_w frac).
Notation top := (fx_limit bits frac).
Notation q o := (Q2R (match o with Some z => fval frac z | None => 0%Q end)).
Notation B := (2 ^ frac)%Z.

Lemma v_add a b : v (a + b) = v a + v b.
Proof. rewrite (Qeq_eqR _ _ (fval_add frac Hf a b)). apply Q2R_plus. Qed.
Lemma v_zero : v 0 = 0.
Proof. rewrite (Qeq_eqR _ _ (v_0 frac Hf)). apply Q2R_0. Qed.
Lemma v_neg a : v (- a) = - v a.
Proof. replace (- a)%Z with (0 - a)%Z by lia. rewrite (v_plus frac Hf), v_zero. ring. Qed.
Lemma v_unit : v B = 1.
Proof. rewrite (Qeq_eqR _ _ (v_one frac Hf)). apply Q2R_1. Qed.

(** the reciprocal of a positive number *)
Lemma recip_real l : (0 < l)%Z -> let r := Z.quot (B * B) l in 0 <= v r /\ v r * v l <= 1 /\ 1 <= v r * v l + v l * w.
Proof.
  intros HL. cbv zeta. pose proof (Bpos frac Hf) as HB. set (r := Z.quot (B * B) l). assert (B2 : (0 <= B * B)%Z) by (apply Z.mul_nonneg_nonneg; lia).
  assert (ER : (r = B * B / l)%Z) by (apply Z.quot_div_nonneg; lia).
  pose proof (Z.mod_pos_bound (B * B) l ltac:(lia)) as M1. pose proof (Z.div_mod (B * B) l ltac:(lia)) as M2. rewrite <- ER in M2.
  assert (R0 : (0 <= r)%Z) by (rewrite ER; apply Z.div_pos; lia).
  assert (E1 : (1 == inject_Z (B * B) / (inject_Z B * inject_Z B))%Q) by (rewrite inject_Z_mult; field; apply QB0, Hf).
  assert (G0 : (0 <= fval frac r)%Q) by (rewrite <- (v_0 frac Hf); apply (proj2 (fval_le frac Hf _ _)); exact R0).
  assert (G1 : (fval frac r * fval frac l <= 1)%Q) by (rewrite (v_mul_B frac Hf), E1; apply (div_le frac Hf); nia).
  assert (G2 : (1 <= fval frac r * fval frac l + fval frac l * ulp frac)%Q).
  { rewrite <- v_1, !(v_mul_B frac Hf), E1. setoid_replace (inject_Z (r * l) / (inject_Z B * inject_Z B) + inject_Z (l * 1) / (inject_Z B * inject_Z B))%Q with (inject_Z (r * l + l * 1) / (inject_Z B * inject_Z B))%Q.
    + apply (div_le frac Hf). nia.
    + rewrite inject_Z_plus. field. apply QB0, Hf. }
  apply Qle_Rle in G0, G1, G2. rewrite Q2R_0 in G0. rewrite Q2R_mult, Q2R_1 in G1. rewrite Q2R_1, Q2R_plus, !Q2R_mult in G2. unfold fx_w. lra.
Qed.

(** sums of (- m k) * x k *)
Lemma negsum_real lo K m x s : b_negsum NU lo K m x = Some s ->
  let X := rsum K (fun k => q (m (lo + k)%nat) * q (x (lo + k)%nat)) in - X - INR K * w <= v s <= - X.
Proof.
  cbv zeta. unfold b_negsum. revert s. induction K as [|K IH]; intros s E.
  - cbn in E. injection E as <-. rewrite v_zero. cbn [rsum INR]. lra.
  - cbn [osum] in E. destruct (osum NU lo K _) as [a|]; [|discriminate]. cbn [obind] in E. specialize (IH a eq_refl). cbn [rsum]. rewrite S_INR.
    destruct (m (lo + K)%nat) as [p|]; [|discriminate]. cbn [obind] in E. change (o_neg NU p) with (Some (- p)%Z) in E. cbn [obind] in E. destruct (x (lo + K)%nat) as [p'|]; [|discriminate].
    cbn in E. injection E as <-. rewrite v_add. pose proof (mul_real frac Hf (- p) p') as M. rewrite v_neg in M. lra.
Qed.
Lemma negsum_fit lo K m x s : b_negsum NU lo K m x = Some s -> (forall k, (k < K)%nat -> Rabs (q (m (lo + k)%nat)) < top) ->
  rsum K (fun k => Rabs (q (m (lo + k)%nat)) * Rabs (q (x (lo + k)%nat))) + INR K * w < top -> b_negsum NC lo K m x = Some s.
Proof.
  pose proof (w_bounds frac Hf) as Hw. unfold b_negsum. revert s. induction K as [|K IH]; intros s E Hm H; [exact E|].
  cbn [osum] in E |- *. rewrite S_INR in H. cbn [rsum] in H. destruct (osum NU lo K _) as [a|] eqn:Ea; [|discriminate]. cbn [obind] in E.
  assert (P1 : 0 <= Rabs (q (m (lo + K)%nat)) * Rabs (q (x (lo + K)%nat))) by (apply Rmult_le_pos; apply Rabs_pos).
  rewrite (IH a eq_refl) by (first [intros k Hk; apply Hm; lia|lra]). cbn [obind].
  pose proof (negsum_real lo (S K) m x s) as G. unfold b_negsum in G. cbn [osum] in G. rewrite Ea in G. specialize (G E). cbv zeta in G. cbn [rsum] in G. rewrite S_INR in G.
  assert (HX : Rabs (rsum K (fun k => q (m (lo + k)%nat) * q (x (lo + k)%nat))) <= rsum K (fun k => Rabs (q (m (lo + k)%nat)) * Rabs (q (x (lo + k)%nat)))).
  { eapply Rle_trans; [apply rsum_abs|]. right. apply rsum_ext. intros. apply Rabs_mult. }
  set (X := rsum K (fun k => q (m (lo + k)%nat) * q (x (lo + k)%nat))) in *. set (Y := rsum K (fun k => Rabs (q (m (lo + k)%nat)) * Rabs (q (x (lo + k)%nat)))) in *.
  pose proof (Rabs_pos X) as A4. pose proof (pos_INR K) as A5. assert (A6 : 0 <= INR K * w) by nra. specialize (Hm K ltac:(lia)).
  destruct (m (lo + K)%nat) as [p|]; [|discriminate]. cbn [obind] in *. change (o_neg NU p) with (Some (- p)%Z) in E. cbn [obind] in E. destruct (x (lo + K)%nat) as [p'|]; [|discriminate].
  rewrite <- Rabs_mult in *. cbn in E. injection E as <-. change (o_neg NC p) with (fx_res bits true (- p)). rewrite (res_real bits frac Hf) by (rewrite v_neg, Rabs_Ropp; exact Hm). cbn [obind].
  pose proof (mul_real frac Hf (- p) p') as M. rewrite v_neg in M. set (pr := (- p * p' / B)%Z) in *.
  pose proof (Rle_abs (v p * v p')) as A7. pose proof (Rle_abs (- (v p * v p'))) as A8. rewrite Rabs_Ropp in A8. pose proof (Rle_abs X). pose proof (Rle_abs (- X)) as A10. rewrite Rabs_Ropp in A10.
  cbn. fold pr. rewrite (res_real bits frac Hf); [cbn; apply (res_real bits frac Hf)|]; apply Rabs_def1; lra.
Qed.

(** one unknown of a triangular system *)
Lemma entry_fit lo K m x bb r t : b_mul NU (b_add NU (Some bb) (b_negsum NU lo K m x)) (Some r) = Some t -> (forall k, (k < K)%nat -> Rabs (q (m (lo + k)%nat)) < top) ->
  Rabs (v bb) + rsum K (fun k => Rabs (q (m (lo + k)%nat)) * Rabs (q (x (lo + k)%nat))) + INR K * w < top -> Rabs (v t) < top ->
  b_mul NC (b_add NC (Some bb) (b_negsum NC lo K m x)) (Some r) = Some t.
Proof.
  intros E Hm H Ht. pose proof (w_bounds frac Hf) as Hw. destruct (b_negsum NU lo K m x) as [s|] eqn:Es; [|discriminate]. pose proof (Rabs_pos (v bb)) as A1.
  rewrite (negsum_fit lo K m x s Es Hm) by lra. pose proof (negsum_real lo K m x s Es) as G. cbv zeta in G.
  assert (HX : Rabs (rsum K (fun k => q (m (lo + k)%nat) * q (x (lo + k)%nat))) <= rsum K (fun k => Rabs (q (m (lo + k)%nat)) * Rabs (q (x (lo + k)%nat)))).
  { eapply Rle_trans; [apply rsum_abs|]. right. apply rsum_ext. intros. apply Rabs_mult. }
  set (X := rsum K (fun k => q (m (lo + k)%nat) * q (x (lo + k)%nat))) in *. pose proof (Rle_abs X). pose proof (Rle_abs (- X)) as A10. rewrite Rabs_Ropp in A10.
  pose proof (Rle_abs (v bb)). pose proof (Rle_abs (- v bb)) as A11. rewrite Rabs_Ropp in A11.
  pose proof (pos_INR K) as A5. assert (A6 : 0 <= INR K * w) by nra.
  unfold b_mul, b_add in *. cbn [obind] in *. cbn in E |- *. rewrite (res_real bits frac Hf) by (rewrite v_add; apply Rabs_def1; lra). cbn [obind]. injection E as <-. apply (res_real bits frac Hf). exact Ht.
Qed.

(** ** the two substitutions *)
Variables (n : nat) (L X : nat -> nat -> option Z) (sig lam : R).
Notation N := (INR n).
Notation tau := (fx_tau frac n sig).
Notation rho := (fx_rho frac n sig).
Notation l i k := (q (L i k)).
Hypothesis Hn : (1 <= n)%nat.
Hypothesis HR : fx_inv_ready bits frac n sig lam.
Hypothesis HS : 0 <= sig.
Hypothesis HZ : forall i k, (i < k < n)%nat -> l i k = 0.
Hypothesis F2 : forall i, (i < n)%nat -> 0 < l i i /\ lam / 2 <= l i i * l i i.
Hypothesis F3 : forall i, (i < n)%nat -> rsum n (fun k => l i k * l i k) <= tau.
Hypothesis F4 : forall v, lam / 2 * rsum n (fun k => v k * v k) <= rsum n (fun p => rsum n (fun k => l k p * v k) * rsum n (fun k => l k p * v k)).
Variable Y : nat -> nat -> option Z.
Hypothesis HY : forall i, (i < n)%nat -> exists r, obind (L i i) (o_recip NU) = Some r /\ forall j, (j <= i)%nat ->
    Y j i = b_mul NU (b_add NU (Some (if Nat.eqb i j then n_one NU else n_zero NU)) (b_negsum NU j (i - j) (fun k => L i k) (fun k => Y j k))) (Some r) /\
    X i j = b_mul NU (b_add NU (Y j i) (b_negsum NU (i + 1) (n - (i + 1)) (fun k => L k i) (fun k => X j k))) (Some r) /\
    X j i = X i j.
Hypothesis DX : defined n n X.

Lemma tau_rho : 0 <= tau /\ 1 <= N /\ 0 <= rho /\ 0 < lam /\ (forall i, (i < n)%nat -> l i i * l i i <= tau /\ 2 * l i i <= 1 + tau /\ l i i * w <= / 2) /\ 16 * N * (rho * rho) <= lam /\ 16 * N * (rho * rho) <= 1 /\ N * w <= tau.
Proof.
  destruct HR as ((R1 & R2 & R3) & Q1 & Q2 & Q3). pose proof (w_bounds frac Hf) as Hw. pose proof (nbound n Hn) as HN.
  assert (Ht : 0 <= tau) by (eapply Rle_trans; [apply (rsum_sq_abs n (fun k => l 0%nat k))|apply F3; lia]).
  assert (Hr : 0 <= rho) by (unfold fx_rho; apply Rmult_le_pos; lra).
  assert (Hr2 : (1 + tau) * w <= rho) by (unfold fx_rho; apply Rmult_le_compat_r; lra).
  split; [exact Ht|]. split; [exact HN|]. split; [exact Hr|]. split; [exact R1|].
  assert (G : forall i, (i < n)%nat -> l i i * l i i <= tau /\ 2 * l i i <= 1 + tau /\ l i i * w <= / 2).
  { intros i Hi. pose proof (one_sq n (fun k => l i k) i Hi) as O. cbv beta in O. specialize (F3 i Hi). destruct (F2 i Hi) as (D & _). pose proof (Rle_0_sqr (l i i - 1)) as P. unfold Rsqr in P.
    set (ll := l i i) in *. assert (D2 : 2 * ll <= 1 + tau) by lra. split; [lra|]. split; [exact D2|]. assert (2 * ll * w <= (1 + tau) * w) by (apply Rmult_le_compat_r; lra).
    assert (4 * rho <= 4 * N * rho) by nra. lra. }
  split; [exact G|].
  assert (S : 16 * N * (rho * rho) <= (4 * N * rho) * (4 * N * rho)). { replace ((4 * N * rho) * (4 * N * rho)) with (16 * N * (rho * rho) * N) by ring. assert (0 <= 16 * N * (rho * rho)) by (apply Rmult_le_pos; nra). nra. }
  assert (S0 : 0 <= 4 * N * rho) by (apply Rmult_le_pos; lra).
  split; [nra|]. split; [nra|].
  unfold fx_tau. lra.
Qed.

Lemma recip_ok i r : (i < n)%nat -> obind (L i i) (o_recip NU) = Some r ->
  obind (L i i) (o_recip NC) = Some r /\ 0 <= v r /\ v r * l i i <= 1 /\ 1 <= v r * l i i + l i i * w.
Proof.
  intros Hi E. destruct (F2 i Hi) as (D1 & D2). destruct tau_rho as (Ht & HN & Hr & Hl & G & K1 & K2 & K3). destruct HR as ((_ & _ & _) & _ & _ & Q3).
  destruct (L i i) as [ll|]; [|discriminate]. cbn [obind] in *.
  assert (HL : (0 < ll)%Z). { destruct (Z.le_gt_cases ll 0) as [Hle|]; [|assumption]. exfalso. apply (proj2 (fval_le frac Hf _ _)) in Hle. apply Qle_Rle in Hle. rewrite v_zero in Hle. lra. }
  cbn in E. destruct (Z.eqb_spec ll 0); [lia|]. injection E as <-. destruct (recip_real ll HL) as (P1 & P2 & P3). set (r := Z.quot (B * B) ll) in *.
  split; [|lra]. cbn. destruct (Z.eqb_spec ll 0); [lia|]. fold r. apply (res_real bits frac Hf). rewrite Rabs_pos_eq by exact P1.
  assert (S1 : v r * v r * (lam / 2) <= 1).
  { assert (v r * v r * (lam / 2) <= v r * v r * (v ll * v ll)) by (apply Rmult_le_compat_l; nra). assert (Z0 : 0 <= v r * v ll) by (apply Rmult_le_pos; lra). assert (Z2 : (v r * v ll) * (v r * v ll) <= 1 * 1) by (apply Rmult_le_compat; lra). lra. }
  set (z := / lam). assert (Pz : 0 < z) by (apply Rinv_0_lt_compat, Hl).
  assert (S2 : v r * v r <= 2 * z). { replace (v r * v r) with (2 * z * (v r * v r * (lam / 2))) by (unfold z; field; lra). nra. }
  pose proof (abs_of_square (v r) _ S2) as S3. rewrite Rabs_pos_eq in S3 by exact P1.
  replace (9 / lam) with (9 * z) in Q3 by reflexivity. replace (36 / lam ^ 2) with (36 * (z * z)) in Q3 by (unfold z; field; lra). assert (0 <= N * tau) by nra. nra.
Qed.

(** the error of one equation *)
Lemma entry_real lo K m x bb i r t : (i < n)%nat -> (K <= n)%nat -> obind (L i i) (o_recip NU) = Some r ->
  b_mul NU (b_add NU (Some bb) (b_negsum NU lo K m x)) (Some r) = Some t ->
  Rabs (rsum K (fun k => q (m (lo + k)%nat) * q (x (lo + k)%nat)) + l i i * v t - v bb) <= rho * (1 + Rabs (v t)).
Proof.
  intros Hi HK Er E. destruct (recip_ok i r Hi Er) as (_ & P1 & P2 & P3). destruct (F2 i Hi) as (D1 & _). destruct tau_rho as (Ht & HN & Hr & Hl & G & _). destruct (G i Hi) as (G1 & G2 & G3).
  pose proof (w_bounds frac Hf) as Hw. destruct (b_negsum NU lo K m x) as [s|] eqn:Es; [|discriminate]. pose proof (negsum_real lo K m x s Es) as NS. cbv zeta in NS.
  cbn in E. injection E as <-. pose proof (mul_real frac Hf (bb + s) r) as M. rewrite v_add in M. set (t := v ((bb + s) * r / B)) in *. set (XX := rsum K _) in *. set (ll := l i i) in *.
  set (sv := v bb + v s) in *. assert (HKN : INR K * w <= N * w) by (apply Rmult_le_compat_r; [lra|apply le_INR, HK]).
  (* |sv| <= 2 ll (|t| + w) *)
  assert (A1 : Rabs sv * v r <= Rabs t + w).
  { rewrite <- (Rabs_pos_eq (v r)) by exact P1. rewrite <- Rabs_mult. replace (sv * v r) with (t + (sv * v r - t)) by ring. eapply Rle_trans; [apply Rabs_triang|]. apply Rplus_le_compat_l. apply Rabs_le. lra. }
  pose proof (Rabs_pos sv) as A0. pose proof (Rabs_pos t) as T0.
  assert (A2 : Rabs sv <= 2 * ll * (Rabs t + w)).
  { assert (H : Rabs sv * v r * ll <= (Rabs t + w) * ll) by (apply Rmult_le_compat_r; lra). assert (H2 : Rabs sv * (/ 2) <= Rabs sv * (v r * ll)) by (apply Rmult_le_compat_l; lra). lra. }
  assert (A3 : Rabs (sv - ll * t) <= Rabs sv * (ll * w) + ll * w).
  { replace (sv - ll * t) with (sv * (1 - v r * ll) + ll * (sv * v r - t)) by ring. eapply Rle_trans; [apply Rabs_triang|]. rewrite !Rabs_mult. apply Rplus_le_compat.
    - apply Rmult_le_compat_l; [exact A0|]. apply Rabs_le. lra.
    - rewrite (Rabs_pos_eq ll) by lra. apply Rmult_le_compat_l; [lra|]. apply Rabs_le. lra. }
  assert (A4 : Rabs sv * (ll * w) <= 2 * tau * w * (Rabs t + 1)).
  { apply Rle_trans with (2 * ll * (Rabs t + w) * (ll * w)); [apply Rmult_le_compat_r; [apply Rmult_le_pos; lra|exact A2]|].
    replace (2 * ll * (Rabs t + w) * (ll * w)) with (2 * (ll * ll) * w * (Rabs t + w)) by ring.
    apply Rmult_le_compat; try lra; [apply Rmult_le_pos; [nra|lra]|apply Rmult_le_compat_r; lra]. }
  replace (XX + ll * t - v bb) with (- (sv - ll * t) + (v s + XX)) by (unfold sv; ring). eapply Rle_trans; [apply Rabs_triang|]. rewrite Rabs_Ropp.
  assert (A5 : Rabs (v s + XX) <= N * w) by (apply Rabs_le; lra).
  assert (A6 : ll * w <= (1 + tau) * w) by (apply Rmult_le_compat_r; lra).
  assert (A7 : (N + 1 + tau) * w + 2 * tau * w * (Rabs t + 1) <= rho * (1 + Rabs t)).
  { unfold fx_rho. replace ((N + 1 + 3 * tau) * w * (1 + Rabs t)) with ((N + 1 + tau) * w * (1 + Rabs t) + 2 * tau * w * (Rabs t + 1)) by ring. apply Rplus_le_compat_r.
    assert (0 <= (N + 1 + tau) * w) by (apply Rmult_le_pos; lra). nra. }
  lra.
Qed.

Definition lt (i k : nat) : R := if Nat.ltb k n then if Nat.ltb i n then l i k else 0 else 0.
Lemma lt_in i k : (i < n)%nat -> (k < n)%nat -> lt i k = l i k.
Proof. intros Hi Hk. unfold lt. apply Nat.ltb_lt in Hi, Hk. rewrite Hi, Hk. reflexivity. Qed.
Lemma lt_zero i k : (i < k)%nat -> lt i k = 0.
Proof. intros H. unfold lt. destruct (Nat.ltb_spec k n); [|reflexivity]. destruct (Nat.ltb_spec i n); [|reflexivity]. apply HZ. lia. Qed.
Lemma lt_diag k : (k < n)%nat -> lt k k <> 0.
Proof. intros Hk. rewrite lt_in by assumption. destruct (F2 k Hk). lra. Qed.
Lemma lt_quad v : lam / 2 * rsum n (fun k => v k * v k) <= rsum n (fun p => rsum n (fun k => lt k p * v k) * rsum n (fun k => lt k p * v k)).
Proof.
  eapply Rle_trans; [apply F4|]. right. apply rsum_ext. intros p Hp. rewrite (rsum_ext n (fun k => lt k p * v k) (fun k => l k p * v k)) by (intros k Hk; rewrite lt_in by assumption; reflexivity). reflexivity.
Qed.

Definition yv (j k : nat) : R := if Nat.ltb k j then 0 else q (Y j k).
Definition xv (j k : nat) : R := if Nat.ltb k j then 0 else q (X j k).
Lemma y_some j i : (j <= i < n)%nat -> exists b, Y j i = Some b.
Proof.
  intros Hi. destruct (HY i ltac:(lia)) as (r & _ & G). destruct (G j ltac:(lia)) as (_ & E & _). pose proof (DX i j ltac:(lia) ltac:(lia)) as D. rewrite E in D.
  destruct (Y j i) as [b|]; [eauto|]. exfalso. apply D. reflexivity.
Qed.
Lemma y_res j i : (j < n)%nat -> (i < n)%nat -> Rabs (rsum n (fun k => lt i k * yv j k) - dlt i j) <= rho * (1 + Rabs (yv j i)).
Proof.
  intros Hj Hi. destruct tau_rho as (_ & _ & Hr & _). destruct (Nat.lt_ge_cases i j) as [Hlt|Hge].
  - rewrite rsum_zero. { unfold dlt. destruct (Nat.eqb_spec i j); [lia|]. rewrite Rminus_0_r, Rabs_R0. pose proof (Rabs_pos (yv j i)). nra. }
    intros k Hk. unfold yv. destruct (Nat.ltb_spec k j); [ring|]. rewrite lt_zero by lia. ring.
  - destruct (HY i Hi) as (r & Er & G). destruct (G j Hge) as (E & _). destruct (y_some j i ltac:(lia)) as (t & Et). rewrite Et in E. symmetry in E.
    pose proof (entry_real j (i - j) (fun k => L i k) (fun k => Y j k) _ i r t Hi ltac:(lia) Er E) as H. cbv beta in H.
    assert (Oy : forall k, (j <= k)%nat -> yv j k = q (Y j k)) by (intros k Hk; unfold yv; destruct (Nat.ltb_spec k j); [lia|reflexivity]).
    assert (Y0 : forall k, (k < j)%nat -> yv j k = 0) by (intros k Hk; unfold yv; destruct (Nat.ltb_spec k j); [reflexivity|lia]).
    assert (E1 : rsum (i - j) (fun k => l i (j + k)%nat * q (Y j (j + k)%nat)) = rsum i (fun k => lt i k * yv j k)).
    { pose proof (rsum_shift j (i - j) (fun k => lt i k * yv j k)) as P. replace (j + (i - j))%nat with i in P by lia. rewrite P, (rsum_zero j) by (intros k Hk; rewrite Y0 by exact Hk; ring). rewrite Rplus_0_l. apply rsum_ext. intros k Hk. rewrite lt_in by lia. rewrite Oy by lia. reflexivity. }
    rewrite E1 in H. rewrite (Oy i Hge), Et. replace (dlt i j) with (v (if Nat.eqb i j then n_one NU else n_zero NU)).
    + rewrite (rsum_trunc (S i) n) by (first [lia|intros p Hp; rewrite lt_zero by lia; ring]). cbn [rsum]. rewrite (lt_in i i), (Oy i Hge), Et by lia. exact H.
    + unfold dlt. destruct (Nat.eqb i j); [exact v_unit|exact v_zero].
Qed.
Lemma x_res j i : (j <= i < n)%nat -> Rabs (rsum n (fun k => lt k i * xv j k) - yv j i) <= rho * (1 + Rabs (xv j i)).
Proof.
  intros Hi. destruct (HY i ltac:(lia)) as (r & Er & G). destruct (G j ltac:(lia)) as (_ & E & ES). destruct (y_some j i Hi) as (b & Eb). rewrite Eb in E. rewrite <- ES in E.
  pose proof (DX j i ltac:(lia) ltac:(lia)) as D. destruct (X j i) as [t|] eqn:Et; [clear D|congruence]. symmetry in E.
  pose proof (entry_real (i + 1) (n - (i + 1)) (fun k => L k i) (fun k => X j k) b i r t ltac:(lia) ltac:(lia) Er E) as H. cbv beta in H.
  assert (Ox : forall k, (j <= k)%nat -> xv j k = q (X j k)) by (intros k Hk; unfold xv; destruct (Nat.ltb_spec k j); [lia|reflexivity]).
  assert (Oy : yv j i = v b) by (unfold yv; destruct (Nat.ltb_spec i j); [lia|rewrite Eb; reflexivity]).
  assert (E1 : rsum n (fun k => lt k i * xv j k) = rsum (n - (i + 1)) (fun k => l (i + 1 + k)%nat i * q (X j (i + 1 + k)%nat)) + l i i * v t).
  { pose proof (rsum_shift (i + 1) (n - (i + 1)) (fun k => lt k i * xv j k)) as P. replace (i + 1 + (n - (i + 1)))%nat with n in P by lia. rewrite P. clear P. replace (i + 1)%nat with (S i) by lia. cbn [rsum]. rewrite (rsum_zero i) by (intros k Hk; rewrite lt_zero by lia; ring).
    rewrite lt_in, (Ox i), Et by lia. rewrite (rsum_ext (n - S i) (fun k => lt (S i + k) i * xv j (S i + k)) (fun k => l (S i + k)%nat i * q (X j (S i + k)%nat))); [ring|].
    intros k Hk. rewrite lt_in, Ox by lia. reflexivity. }
  rewrite E1, Oy, (Ox i), Et by lia. exact H.
Qed.
Lemma y_norm j : (j < n)%nat -> rsum n (fun k => yv j k * yv j k) <= 9 / lam.
Proof.
  intros Hj. destruct tau_rho as (_ & HN & Hr & Hl & _ & K1 & K2 & _).
  apply (y_size n lt lam rho Hn Hl lt_diag lt_zero lt_quad K1 K2 j (yv j) Hj). intros i Hi. apply y_res; assumption.
Qed.
Lemma x_norm j : (j < n)%nat -> rsum n (fun k => xv j k * xv j k) <= 72 / lam ^ 2 + 1.
Proof.
  intros Hj. destruct tau_rho as (_ & HN & Hr & Hl & _ & K1 & K2 & _).
  apply (x_size n lt lam rho Hn Hl lt_diag lt_zero lt_quad Hr K1 K2 j (yv j) (xv j) Hj).
  - intros k Hk. unfold xv. destruct (Nat.ltb_spec k j); [reflexivity|lia].
  - intros i Hi. apply y_res; assumption.
  - intros i Hi. apply x_res, Hi.
Qed.

(** ** no overflow *)
Lemma inv_fits : b_inverse NC n L X.
Proof.
  exists Y. intros i Hi. destruct (HY i Hi) as (r & Er & G). destruct (recip_ok i r Hi Er) as (Er' & _). exists r. split; [exact Er'|].
  destruct tau_rho as (Ht & HN & Hr & Hl & GG & K1 & K2 & K3). pose proof (w_bounds frac Hf) as Hw. destruct HR as (_ & _ & _ & Q3).
  set (z := / lam). assert (Pz : 0 < z) by (apply Rinv_0_lt_compat, Hl). assert (P2 : 0 < z * z) by (apply Rmult_lt_0_compat; exact Pz).
  replace (9 / lam) with (9 * z) in Q3 by reflexivity. replace (36 / lam ^ 2) with (36 * (z * z)) in Q3 by (unfold z; field; lra).
  assert (NT : tau <= N * tau) by nra. assert (NT0 : 0 <= N * tau) by lra.
  assert (LT : forall i k, (i < n)%nat -> (k < n)%nat -> l i k * l i k <= tau). { intros a b Ha Hb. eapply Rle_trans; [apply (one_sq n (fun k => l a k) b Hb)|apply F3, Ha]. }
  assert (LB : forall i k, (i < n)%nat -> (k < n)%nat -> Rabs (l i k) < top). { intros a b Ha Hb. pose proof (abs_of_square _ _ (LT a b Ha Hb)). lra. }
  intros j Hj. destruct (G j Hj) as (E1 & E2 & E3). pose proof (y_norm j ltac:(lia)) as YN. pose proof (x_norm j ltac:(lia)) as XN.
  replace (9 / lam) with (9 * z) in YN by reflexivity. replace (72 / lam ^ 2) with (72 * (z * z)) in XN by (unfold z; field; lra).
  assert (Oy : forall k, (j <= k)%nat -> q (Y j k) = yv j k) by (intros k Hk; unfold yv; destruct (Nat.ltb_spec k j); [lia|reflexivity]).
  assert (Ox : forall k, (j <= k)%nat -> q (X j k) = xv j k) by (intros k Hk; unfold xv; destruct (Nat.ltb_spec k j); [lia|reflexivity]).
  assert (KW : forall K, (K <= n)%nat -> INR K * w <= N * tau). { intros K HK. assert (INR K <= N) by (apply le_INR, HK). assert (INR K * w <= N * w) by (apply Rmult_le_compat_r; lra). lra. }
  assert (YB : Rabs (yv j i) <= (1 + 9 * z) / 2). { apply abs_of_square. eapply Rle_trans; [apply (one_sq n (yv j) i Hi)|exact YN]. }
  assert (XB : Rabs (xv j i) <= (1 + (72 * (z * z) + 1)) / 2). { apply abs_of_square. eapply Rle_trans; [apply (one_sq n (xv j) i Hi)|exact XN]. }
  split; [|split; [|exact E3]].
  - destruct (y_some j i ltac:(lia)) as (t & Et). rewrite Et in E1. symmetry in E1. rewrite Et. symmetry.
    change (n_one NC) with (n_one NU). change (n_zero NC) with (n_zero NU). apply (entry_fit _ _ _ _ _ _ _ E1).
    + intros k Hk. apply LB; lia.
    + set (d := v (if Nat.eqb i j then n_one NU else n_zero NU)). assert (Bd : Rabs d <= 1). { unfold d. destruct (Nat.eqb i j); [change (n_one NU) with B; rewrite v_unit, Rabs_R1|change (n_zero NU) with 0%Z; rewrite v_zero, Rabs_R0]; lra. }
      pose proof (cs_mean (i - j) (fun k => l i (j + k)%nat) (fun k => q (Y j (j + k)%nat))) as CM. cbv beta in CM.
      assert (C1 : rsum (i - j) (fun k => l i (j + k)%nat * l i (j + k)%nat) <= tau).
      { eapply Rle_trans; [|apply (F3 i Hi)]. pose proof (rsum_part (j + (i - j)) n (fun k => l i k * l i k) ltac:(lia) ltac:(intros; nra)) as P. rewrite rsum_shift in P. pose proof (rsum_sq_abs j (fun k => l i k)). cbv beta in H. lra. }
      assert (C2 : rsum (i - j) (fun k => q (Y j (j + k)%nat) * q (Y j (j + k)%nat)) <= 9 * z).
      { eapply Rle_trans; [|exact YN]. pose proof (rsum_part (j + (i - j)) n (fun k => yv j k * yv j k) ltac:(lia) ltac:(intros; nra)) as P. rewrite rsum_shift in P. pose proof (rsum_sq_abs j (yv j)).
        rewrite (rsum_ext (i - j) _ (fun k => yv j (j + k) * yv j (j + k))) by (intros k Hk; rewrite Oy by lia; reflexivity). lra. }
      pose proof (KW (i - j)%nat ltac:(lia)). lra.
    + rewrite <- (Oy i Hj), Et in YB. lra.
  - destruct (y_some j i ltac:(lia)) as (b & Eb). rewrite Eb in E2 |- *. pose proof (DX i j Hi ltac:(lia)) as D. destruct (X i j) as [t|] eqn:Et; [clear D|congruence]. symmetry in E2. symmetry.
    apply (entry_fit _ _ _ _ _ _ _ E2).
    + intros k Hk. apply LB; lia.
    + rewrite <- (Oy i Hj), Eb in YB. pose proof (cs_mean (n - (i + 1)) (fun k => l (i + 1 + k)%nat i) (fun k => q (X j (i + 1 + k)%nat))) as CM. cbv beta in CM.
      assert (C1 : rsum (n - (i + 1)) (fun k => l (i + 1 + k)%nat i * l (i + 1 + k)%nat i) <= N * tau).
      { apply Rle_trans with (rsum (n - (i + 1)) (fun _ => tau)); [apply rsum_le; intros k Hk; apply LT; lia|]. rewrite rsum_const. apply Rmult_le_compat_r; [exact Ht|apply le_INR; lia]. }
      assert (C2 : rsum (n - (i + 1)) (fun k => q (X j (i + 1 + k)%nat) * q (X j (i + 1 + k)%nat)) <= 72 * (z * z) + 1).
      { eapply Rle_trans; [|exact XN]. pose proof (rsum_shift (i + 1) (n - (i + 1)) (fun k => xv j k * xv j k)) as P. replace (i + 1 + (n - (i + 1)))%nat with n in P by lia. pose proof (rsum_sq_abs (i + 1) (xv j)).
        rewrite (rsum_ext (n - (i + 1)) _ (fun k => xv j (i + 1 + k) * xv j (i + 1 + k))) by (intros k Hk; rewrite Ox by lia; reflexivity). rewrite P. lra. }
      pose proof (KW (n - (i + 1))%nat ltac:(lia)). lra.
    + rewrite <- (Ox i Hj), E3 in XB. lra.
Qed.

(** ** accuracy *)
Lemma inv_near (a W : nat -> nat -> R) d : (forall i j, (i < n)%nat -> (j < n)%nat -> a i j = a j i) -> eig_above n a lam -> inverse_of n a W -> 0 <= d ->
  (forall i j, (i < n)%nat -> (j < n)%nat -> Rabs (a i j - rsum n (fun k => l i k * l j k)) <= d) ->
  forall i j, (i < n)%nat -> (j < n)%nat -> Rabs (q (X i j) - W i j) <= fx_inv_err frac n sig lam d.
Proof.
  intros Sa Ea IW Hd0 Hd. destruct tau_rho as (_ & HN & Hr & Hl & _ & K1 & K2 & _).
  assert (SW : sym_on n W) by (apply (inverse_sym n a); [intros p p' Hp Hp'; apply Sa; assumption|exact IW]).
  assert (Hdt : forall i k, (i < n)%nat -> (k < n)%nat -> Rabs (a i k - rsum n (fun p => lt i p * lt k p)) <= d).
  { intros i k Hi Hk. rewrite (rsum_ext n (fun p => lt i p * lt k p) (fun p => l i p * l k p)) by (intros p Hp; rewrite !lt_in by assumption; reflexivity). apply Hd; assumption. }
  assert (G : forall j i, (j <= i < n)%nat -> Rabs (q (X j i) - W i j) <= fx_inv_err frac n sig lam d).
  { intros j i Hi. destruct (fwd_solve n lt (fun p => dlt p j) lt_diag lt_zero) as (ys & Hys & _). destruct (tri_solve n lt ys lt_diag lt_zero) as (t & Htt).
    pose proof (x_near n lt lam rho Hn Hl lt_diag lt_zero lt_quad Hr K1 K2 j (yv j) (xv j) ltac:(lia)) as XN.
    specialize (XN ltac:(intros k Hk; unfold xv; destruct (Nat.ltb_spec k j); [reflexivity|lia]) ltac:(intros k Hk; apply y_res; lia) ltac:(intros k Hk; apply x_res, Hk) ys t Hys Htt i Hi).
    pose proof (tri_near n lt lam Hn Hl lt_quad a W d j ys t Ea IW Hd0 Hdt ltac:(lia) Hys Htt i ltac:(lia)) as TN.
    assert (Ox : xv j i = q (X j i)) by (unfold xv; destruct (Nat.ltb_spec i j); [lia|reflexivity]). rewrite Ox in XN.
    unfold fx_inv_err. replace (q (X j i) - W i j) with ((q (X j i) - t i) + (t i - W i j)) by ring. eapply Rle_trans; [apply Rabs_triang|]. apply Rplus_le_compat; [|exact TN].
    apply sqrt_abs_le in XN. eapply Rle_trans; [exact XN|]. rewrite sqrt_mult_alt by nra. rewrite sqrt_square by exact Hr. lra. }
  intros i j Hi Hj. destruct (Nat.le_ge_cases i j) as [Hle|Hge].
  - rewrite (SW i j Hi Hj). apply G. lia.
  - destruct (HY i Hi) as (r & _ & HH). destruct (HH j ltac:(lia)) as (_ & _ & E). rewrite <- E. apply G. lia.
Qed.
End Entry.
