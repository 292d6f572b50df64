(** * When the fixed-point Cholesky decomposition succeeds *)
From Coq Require Import ZArith QArith Qabs Reals Qreals Lia Lra Psatz.
From Verif Require Import Prelude Spec SpecBits SpecDefined Matrix Filter SpecFilter Kernels FixedNum SpecFixed SpecFixedRange SpecFixedFactor SpecReal SpecSolve SpecFixedSolve
  NumSim BitsProof Chol Defined FixedProof FixedRange FixedScalar FixedChol FloatErr FloatPredict FloatForward FloatRange RealSchur FloatSolvable.
Open Scope R_scope.

(** ** from rationals to reals *)
Lemma Q2R_qsum K f : Q2R (qsum K f) = rsum K (fun k => Q2R (f k)).
Proof. induction K as [|K IH]; cbn [qsum rsum]; [unfold Q2R; cbn; lra|]. rewrite Q2R_plus, IH. reflexivity. Qed.
Lemma Q2R_abs q : Q2R (Qabs q) = Rabs (Q2R q).
Proof.
  apply Qabs_case; intros H; apply Qle_Rle in H; replace (Q2R 0) with 0 in H by (unfold Q2R; cbn; lra).
  - rewrite Rabs_pos_eq; lra.
  - rewrite Q2R_opp, Rabs_left1; lra.
Qed.
Lemma Q2R_nat K : Q2R (qn K) = INR K.
Proof. unfold qn, Q2R, inject_Z. cbn. rewrite <- INR_IZR_INZ. lra. Qed.
Lemma Q2R_1 : Q2R 1 = 1. Proof. unfold Q2R; cbn; lra. Qed.
Lemma Q2R_2 : Q2R 2 = 2. Proof. unfold Q2R; cbn; lra. Qed.
Lemma Q2R_0 : Q2R 0 = 0. Proof. unfold Q2R; cbn; lra. Qed.

(** [q_column] in the reals *)
Lemma column_real w n a l i : q_column w n a l i ->
  let w := Q2R w in let a := fun i j => Q2R (a i j) in let l := fun i j => Q2R (l i j) in
  0 < l i i /\ - (INR i * w) <= a i i - rsum (S i) (fun k => l i k * l i k) <= (2 * l i i + w) * w /\
  forall j, (i < j < n)%nat -> Rabs (a i j - rsum (S i) (fun k => l i k * l j k)) <=
      INR i * w + (1 + Rabs (a i j) + rsum i (fun k => Rabs (l i k) * Rabs (l j k)) + INR i * w) * (l i i * w).
Proof.
  intros (H1 & (H2 & H3) & H4). cbv zeta. apply Qlt_Rlt in H1. rewrite Q2R_0 in H1. split; [exact H1|]. apply Qle_Rle in H2, H3.
  rewrite Q2R_opp, Q2R_mult, Q2R_nat, Q2R_minus, Q2R_qsum in H2. rewrite Q2R_minus, Q2R_qsum, Q2R_mult, Q2R_plus, Q2R_mult, Q2R_2 in H3.
  rewrite (rsum_ext _ _ (fun k => Q2R (l i k) * Q2R (l i k))) in H2, H3 by (intros; apply Q2R_mult). split; [split; assumption|].
  intros j Hj. specialize (H4 j Hj). apply Qle_Rle in H4. rewrite Q2R_abs, Q2R_minus, Q2R_qsum, Q2R_plus, !Q2R_mult, !Q2R_plus, Q2R_mult, Q2R_qsum, Q2R_abs, Q2R_nat, Q2R_1 in H4.
  rewrite (rsum_ext _ _ (fun k => Q2R (l i k) * Q2R (l j k))) in H4 by (intros; apply Q2R_mult).
  rewrite (rsum_ext _ (fun k => Q2R (Qabs (l i k * l j k))) (fun k => Rabs (Q2R (l i k)) * Rabs (Q2R (l j k)))) in H4 by (intros; rewrite Q2R_abs, Q2R_mult; apply Rabs_mult). exact H4.
Qed.

(** ** accepted matrices, column by column: any matrix with these error bounds *)
Section Cols.
Variables (w : R) (n : nat) (a l : nat -> nat -> R) (sig lam : R).
Hypothesis Hw : 0 < w <= 1.
Hypothesis Hn : (1 <= n)%nat.
Hypothesis sym : forall i j, a i j = a j i.
Hypothesis Hsig : forall i, (i < n)%nat -> a i i <= sig.
Hypothesis Heig : eig_above n a lam.
Notation N := (INR n).
Definition tau := sig + N * w.
Definition eps := (N + (1 + tau) ^ 2) * w.
Hypothesis HR : 0 < lam /\ 2 * (N + 1) * eps <= lam.

Definition rcol (i : nat) : Prop := 0 < l i i /\ - (INR i * w) <= a i i - rsum (S i) (fun k => l i k * l i k) <= (2 * l i i + w) * w /\
  forall j, (i < j < n)%nat -> Rabs (a i j - rsum (S i) (fun k => l i k * l j k)) <=
      INR i * w + (1 + Rabs (a i j) + rsum i (fun k => Rabs (l i k) * Rabs (l j k)) + INR i * w) * (l i i * w).

Lemma quad_pick m r (x : nat -> R) : (m <= r < n)%nat ->
  lam * (rsum m (fun k => x k * x k) + 1) <= rsum m (fun k => rsum m (fun q => a k q * x k * x q)) - 2 * rsum m (fun k => a k r * x k) + a r r.
Proof.
  intros Hr. set (v := fun k => if Nat.ltb k m then - x k else if Nat.eqb k r then 1 else 0). pose proof (Heig v) as H. unfold quad in H.
  assert (v0 : forall p, (m <= p < n)%nat -> p <> r -> v p = 0). { intros p Hp Hne. unfold v. destruct (Nat.ltb_spec p m); [lia|]. destruct (Nat.eqb_spec p r); [lia|reflexivity]. }
  assert (vr : v r = 1). { unfold v. destruct (Nat.ltb_spec r m); [lia|]. rewrite Nat.eqb_refl. reflexivity. }
  assert (vm : forall p, (p < m)%nat -> v p = - x p). { intros p Hp. unfold v. destruct (Nat.ltb_spec p m); [reflexivity|lia]. }
  rewrite (rsum_pick m r n (fun i => v i * v i)) in H by (first [lia|intros p Hp Hne; rewrite (v0 p Hp Hne); ring]).
  rewrite (rsum_pick m r n (fun i => rsum n (fun j => a i j * v i * v j))) in H by (first [lia|intros p Hp Hne; apply rsum_zero; intros q Hq; rewrite (v0 p Hp Hne); ring]).
  rewrite (rsum_pick m r n (fun j => a r j * v r * v j)) in H by (first [lia|intros p Hp Hne; rewrite (v0 p Hp Hne); ring]). cbv beta in H.
  rewrite (rsum_ext m (fun i => rsum n (fun j => a i j * v i * v j)) (fun i => rsum m (fun j => a i j * x i * x j) + - (a i r * x i))) in H.
  2:{ intros i Hi. rewrite (rsum_pick m r n (fun j => a i j * v i * v j)) by (first [lia|intros p Hp Hne; rewrite (v0 p Hp Hne); ring]). cbv beta. rewrite vr, (vm i Hi). f_equal; [|ring].
      apply rsum_ext. intros j Hj. rewrite (vm j Hj). ring. }
  rewrite (rsum_ext m (fun j => a r j * v r * v j) (fun j => - (a j r * x j))) in H by (intros j Hj; rewrite vr, (vm j Hj), (sym r j); ring).
  rewrite (rsum_ext m (fun i => v i * v i) (fun i => x i * x i)) in H by (intros i Hi; rewrite (vm i Hi); ring).
  rewrite rsum_plus, vr in H.
  assert (EN : rsum m (fun k => - (a k r * x k)) = - rsum m (fun k => a k r * x k)). { replace (- rsum m _) with (-1 * rsum m (fun k => a k r * x k)) by ring. rewrite <- rsum_scal. apply rsum_ext. intros. ring. }
  rewrite EN in H. lra.
Qed.
Lemma diag_low i : (i < n)%nat -> lam <= a i i.
Proof. intros Hi. pose proof (quad_pick 0 i (fun _ => 0) ltac:(lia)) as H. cbn [rsum] in H. lra. Qed.
Lemma off_up i j : (i < n)%nat -> (j < n)%nat -> Rabs (a i j) <= sig.
Proof.
  intros Hi Hj.
  assert (G : forall i j, (i < j < n)%nat -> Rabs (a i j) <= sig).
  { clear i j Hi Hj. intros i j Hij. pose proof (Hsig i ltac:(lia)) as D1. pose proof (Hsig j ltac:(lia)) as D2. destruct HR as (Hl & _).
    assert (H : forall x, x * x = 1 -> 0 <= a i i - 2 * (x * a i j) + a j j).
    { intros x Hx. pose proof (quad_pick j j (fun k => if Nat.eqb k i then x else 0) ltac:(lia)) as H. cbv beta in H.
      rewrite (rsum_one j (fun k => (if Nat.eqb k i then x else 0) * (if Nat.eqb k i then x else 0)) i) in H by (first [lia|intros p Hp Hne; apply Nat.eqb_neq in Hne; rewrite Hne; ring]).
      rewrite (rsum_one j (fun k => rsum j (fun q => a k q * (if Nat.eqb k i then x else 0) * (if Nat.eqb q i then x else 0))) i) in H
        by (first [lia|intros p Hp Hne; apply Nat.eqb_neq in Hne; rewrite Hne; apply rsum_zero; intros; ring]).
      rewrite (rsum_one j (fun q => a i q * (if Nat.eqb i i then x else 0) * (if Nat.eqb q i then x else 0)) i) in H by (first [lia|intros p Hp Hne; apply Nat.eqb_neq in Hne; rewrite Hne; ring]).
      rewrite (rsum_one j (fun k => a k j * (if Nat.eqb k i then x else 0)) i) in H by (first [lia|intros p Hp Hne; apply Nat.eqb_neq in Hne; rewrite Hne; ring]).
      rewrite !Nat.eqb_refl in H. rewrite (Rmult_assoc (a i i) x x), Hx in H. lra. }
    pose proof (H 1 ltac:(ring)) as P1. pose proof (H (-1) ltac:(ring)) as P2. apply Rabs_le. lra. }
  destruct (lt_eq_lt_dec i j) as [[Hlt| ->]|Hlt].
  - apply G. lia.
  - pose proof (diag_low j Hj) as D1. pose proof (Hsig j Hj) as D2. destruct HR as (Hl & _). apply Rabs_le. lra.
  - rewrite sym. apply G. lia.
Qed.

Lemma sig_pos : 0 < sig.
Proof. pose proof (diag_low 0 ltac:(lia)). pose proof (Hsig 0%nat ltac:(lia)). destruct HR. lra. Qed.
Lemma HN : 1 <= N. Proof. change 1 with (INR 1). apply le_INR, Hn. Qed.
Lemma tau_pos : sig <= tau /\ 0 < tau.
Proof. pose proof sig_pos. pose proof HN. unfold tau. nra. Qed.
Lemma eps_pos : 0 < eps.
Proof. pose proof tau_pos. pose proof HN. unfold eps. apply Rmult_lt_0_compat; [|lra]. pose proof (pow2_ge_0 (1 + tau)). lra. Qed.

Definition cols (J : nat) : Prop :=
  (forall k, (k < J)%nat -> 0 < l k k /\ lam / 2 <= l k k * l k k) /\
  (forall k, (k < J)%nat -> rsum (S k) (fun p => l k p * l k p) <= tau) /\
  (forall k i, (k < J)%nat -> (k <= i < n)%nat -> Rabs (a k i - rsum (S k) (fun p => l k p * l i p)) <= eps) /\
  (forall i, (J <= i < n)%nat -> rsum J (fun p => l i p * l i p) <= a i i - (lam - N * eps)).

Lemma cols0 : cols 0.
Proof.
  unfold cols. repeat (split; [intros; lia|]). intros i Hi. cbn [rsum]. pose proof (diag_low i ltac:(lia)) as D1. pose proof eps_pos. pose proof HN.
  assert (0 <= N * eps) by (apply Rmult_le_pos; lra). lra.
Qed.

Lemma schur_row J i : (J < i < n)%nat -> (forall k i, (k < S J)%nat -> (k <= i < n)%nat -> Rabs (a k i - rsum (S k) (fun p => l k p * l i p)) <= eps) ->
  (forall k, (k < S J)%nat -> 0 < l k k) -> (forall k, (k < S J)%nat -> rsum (S k) (fun p => l k p * l k p) <= tau) ->
  rsum (S J) (fun p => l i p * l i p) <= a i i - (lam - N * eps).
Proof.
  intros Hi B D TT. destruct HR as (R1 & R2). pose proof eps_pos as He. pose proof HN as HN.
  set (m := S J) in *. assert (Hm : INR m <= N) by (apply le_INR; unfold m; lia). pose proof (pos_INR m) as Hm0.
  set (lz := fun k p => if Nat.leb p k then l k p else 0).
  assert (lzl : forall k p, (p <= k)%nat -> lz k p = l k p) by (intros k p Hp; unfold lz; apply Nat.leb_le in Hp; rewrite Hp; reflexivity).
  assert (lz0 : forall k p, (k < p)%nat -> lz k p = 0) by (intros k p Hp; unfold lz; apply Nat.leb_gt in Hp; rewrite Hp; reflexivity).
  assert (HH : lam - INR m * eps <= a i i - rsum m (fun p => l i p * l i p)); [|nra].
  assert (ES : forall k q, (k <= q)%nat -> (k < m)%nat -> rsum m (fun p => lz k p * lz q p) = rsum (S k) (fun p => l k p * l q p)).
  { intros k q Hkq Hk. rewrite (rsum_trunc (S k) m) by (first [lia|intros p Hp; rewrite lz0 by lia; ring]). apply rsum_ext. intros p Hp. rewrite !lzl by lia. reflexivity. }
  apply (schur m a lz (fun k => a k i) (fun p => l i p) (a i i) 0 tau eps lam); auto; try lra.
  - intros k Hk. rewrite lzl by lia. pose proof (D k Hk). lra.
  - assert (G : forall k q, (k <= q < m)%nat -> Rabs (a k q - rsum m (fun p => lz k p * lz q p)) <= 0 * rsum m (fun p => Rabs (lz k p) * Rabs (lz q p)) + eps).
    { intros k q Hkq. rewrite ES by lia. rewrite Rmult_0_l, Rplus_0_l. apply B; unfold m in *; lia. }
    intros k q Hk Hq. destruct (Nat.le_gt_cases k q) as [Hle|Hgt]; [apply G; lia|]. rewrite sym. rewrite (rsum_ext m (fun p => lz k p * lz q p) (fun p => lz q p * lz k p)) by (intros; ring).
    rewrite (rsum_ext m (fun p => Rabs (lz k p) * Rabs (lz q p)) (fun p => Rabs (lz q p) * Rabs (lz k p))) by (intros; ring). apply G; lia.
  - intros k Hk. rewrite (rsum_trunc (S k) m (fun p => lz k p * l i p)) by (first [lia|intros p Hp; rewrite lz0 by lia; ring]).
    rewrite (rsum_ext _ (fun p => lz k p * l i p) (fun p => l k p * l i p)) by (intros p Hp; rewrite lzl by lia; reflexivity).
    rewrite Rmult_0_l, Rplus_0_l. apply B; unfold m in *; lia.
  - intros k Hk. rewrite ES by lia. apply TT, Hk.
  - intros x. apply quad_pick. unfold m. lia.
  - nra.
Qed.

Lemma step J : (J < n)%nat -> cols J -> rcol J -> cols (S J).
Proof.
  intros HJ (C1 & C2 & C3 & C4) (K1 & (K2 & K3) & K4). pose proof (C4 J ltac:(lia)) as CJ. pose proof (Hsig J HJ) as SJ. pose proof sig_pos as S0. pose proof tau_pos as (T1 & T2).
  pose proof eps_pos as He. pose proof HN as HN. destruct HR as (R1 & R2). assert (HJN : INR J <= N) by (apply le_INR; lia). pose proof (pos_INR J) as HJ0.
  assert (HT : rsum (S J) (fun p => l J p * l J p) <= tau). { unfold tau. assert (INR J * w <= N * w) by (apply Rmult_le_compat_r; lra). lra. }
  pose proof (rsum_sq_abs J (l J)) as HP. cbn [rsum] in HT, K2, K3. set (P := rsum J (fun p => l J p * l J p)) in *. set (ll := l J J) in *.
  assert (L2 : 2 * ll <= 1 + tau) by (pose proof (Rle_0_sqr (ll - 1)) as Q; unfold Rsqr in Q; lra).
  assert (HD : (2 * ll + w) * w <= eps). { unfold eps. apply Rmult_le_compat_r; [lra|]. nra. }
  assert (HE : INR J * w <= eps). { unfold eps. apply Rmult_le_compat_r; [lra|]. nra. }
  assert (HL : lam / 2 <= ll * ll) by lra.
  assert (OFF : forall i, (J <= i < n)%nat -> Rabs (a J i - rsum (S J) (fun p => l J p * l i p)) <= eps).
  { intros i Hi. destruct (Nat.eq_dec i J) as [->|Hne].
    - cbn [rsum]. fold P ll. apply Rabs_le. lra.
    - eapply Rle_trans; [apply K4; lia|]. fold ll. pose proof (off_up J i HJ ltac:(lia)) as HA. pose proof (Rabs_pos (a J i)).
      pose proof (C4 i ltac:(lia)) as CI. pose proof (Hsig i ltac:(lia)) as SI. pose proof (cs_mean J (l J) (l i)) as CM.
      assert (HP2 : rsum J (fun k => Rabs (l J k) * Rabs (l i k)) <= sig). { fold P in CM. assert (0 < lam - N * eps) by nra. lra. }
      assert (0 <= rsum J (fun k => Rabs (l J k) * Rabs (l i k))) by (apply rsum_pos; intros; apply Rmult_le_pos; apply Rabs_pos).
      set (X := rsum J (fun k => Rabs (l J k) * Rabs (l i k))) in *.
      assert (Z1 : 1 + Rabs (a J i) + X + INR J * w <= 2 * (1 + tau)). { unfold tau. nra. }
      assert (Z2 : (1 + Rabs (a J i) + X + INR J * w) * (ll * w) <= 2 * (1 + tau) * (ll * w)) by (apply Rmult_le_compat_r; [nra|exact Z1]).
      assert (Z3 : 2 * (1 + tau) * (ll * w) <= (1 + tau) ^ 2 * w). { replace (2 * (1 + tau) * (ll * w)) with ((1 + tau) * w * (2 * ll)) by ring. replace ((1 + tau) ^ 2 * w) with ((1 + tau) * w * (1 + tau)) by ring. apply Rmult_le_compat_l; [nra|exact L2]. }
      unfold eps. rewrite Rmult_plus_distr_r. nra. }
  assert (D1 : forall k, (k < S J)%nat -> 0 < l k k /\ lam / 2 <= l k k * l k k).
  { intros k Hk. destruct (Nat.eq_dec k J) as [->|Hne]; [split; [exact K1|exact HL]|apply C1; lia]. }
  assert (D2 : forall k, (k < S J)%nat -> rsum (S k) (fun p => l k p * l k p) <= tau).
  { intros k Hk. destruct (Nat.eq_dec k J) as [->|Hne]; [exact HT|apply C2; lia]. }
  assert (D3 : forall k i, (k < S J)%nat -> (k <= i < n)%nat -> Rabs (a k i - rsum (S k) (fun p => l k p * l i p)) <= eps).
  { intros k i Hk Hi. destruct (Nat.eq_dec k J) as [->|Hne]; [apply OFF, Hi|apply C3; lia]. }
  split; [exact D1|]. split; [exact D2|]. split; [exact D3|].
  intros i Hi. apply schur_row; [lia|exact D3|intros k Hk; apply D1, Hk|exact D2].
Qed.

Lemma all_cols J : (J <= n)%nat -> (forall i, (i < J)%nat -> rcol i) -> cols J.
Proof. induction J as [|J IH]; intros HJ H; [apply cols0|]. apply step; [lia|apply IH; [lia|intros; apply H; lia]|apply H; lia]. Qed.
Lemma gap : 0 < lam - N * eps.
Proof. destruct HR as (R1 & R2). pose proof eps_pos. pose proof HN. nra. Qed.
End Cols.

(** ** back to fixed point: everything stays in range *)
Section Fit.
Variables (bits frac : Z).
Hypothesis Hf : (0 <= frac)%Z.
Notation NC := (fx_num bits frac true true).
Notation NU := (unlimited frac).
Notation v z := (Q2R (fval frac z)).
Notation w := (fx_w frac).
Notation top := (fx_limit bits frac).
Notation q o := (Q2R (match o with Some z => fval frac z | None => 0%Q end)).

Lemma w_bounds : 0 < w <= 1.
Proof.
  pose proof (wpos frac Hf) as H1. apply Qlt_Rlt in H1. rewrite Q2R_0 in H1. pose proof (w_le1 frac Hf) as H2. apply Qle_Rle in H2. rewrite Q2R_1 in H2. unfold fx_w. lra.
Qed.
Lemma fits_real z : Rabs (v z) < top -> fx_fits bits z = true.
Proof.
  intros H. apply (fits bits frac Hf).
  - apply Rle_Qle. rewrite Q2R_opp. fold (fx_limit bits frac). apply Rabs_def2 in H. lra.
  - apply Rlt_Qlt. fold (fx_limit bits frac). apply Rabs_def2 in H. lra.
Qed.
Lemma res_real z : Rabs (v z) < top -> fx_res bits true z = Some z.
Proof. intros H. unfold fx_res. rewrite fits_real; auto. Qed.
Lemma v_plus a b : v (a - b) = v a - v b.
Proof. rewrite (Qeq_eqR _ _ (fval_sub frac Hf a b)). apply Q2R_minus. Qed.
Lemma mul_real a b : v a * v b - w <= v (a * b / 2 ^ frac) <= v a * v b.
Proof.
  pose proof (mul_down frac Hf a b) as H1. pose proof (mul_up frac Hf a b) as H2. apply Qle_Rle in H1, H2. rewrite Q2R_mult in H1. rewrite Q2R_mult, Q2R_plus in H2. unfold fx_w. lra.
Qed.

Lemma subdot_real K x f g r : subdot NU K x f g = Some r ->
  let e := v x - rsum K (fun k => q (f k) * q (g k)) in e <= v r <= e + INR K * w.
Proof.
  intros H. destruct (subdot_bound frac Hf K x f g r H) as (H1 & H2). apply Qle_Rle in H1, H2. rewrite Q2R_minus, Q2R_qsum in H1. rewrite Q2R_plus, Q2R_minus, Q2R_qsum, Q2R_mult, Q2R_nat in H2.
  rewrite (rsum_ext _ _ (fun k => q (f k) * q (g k))) in H1, H2 by (intros; apply Q2R_mult). cbv zeta. unfold fx_w. lra.
Qed.
Lemma subdot_fit K x f g r : subdot NU K x f g = Some r -> Rabs (v x) + rsum K (fun k => Rabs (q (f k)) * Rabs (q (g k))) + INR K * w < top -> subdot NC K x f g = Some r.
Proof.
  pose proof w_bounds as Hw. revert r. induction K as [|K IH]; intros r E H; cbn [subdot] in *; [exact E|]. rewrite S_INR in H. cbn [rsum] in H.
  destruct (subdot NU K x f g) as [s|] eqn:Es; [|discriminate]. cbn [obind] in E. pose proof (Rabs_pos (q (f K))) as A1. pose proof (Rabs_pos (q (g K))) as A2.
  rewrite (IH s eq_refl) by nra. cbn [obind].
  pose proof (subdot_real (S K) x f g r) as G. cbn [subdot] in G. rewrite Es in G. specialize (G E). cbv zeta in G. cbn [rsum] in G. rewrite S_INR in G.
  assert (HX : Rabs (rsum K (fun k => q (f k) * q (g k))) <= rsum K (fun k => Rabs (q (f k)) * Rabs (q (g k)))).
  { eapply Rle_trans; [apply rsum_abs|]. right. apply rsum_ext. intros. apply Rabs_mult. }
  set (X := rsum K (fun k => q (f k) * q (g k))) in *. set (Y := rsum K (fun k => Rabs (q (f k)) * Rabs (q (g k)))) in *.
  pose proof (Rabs_pos (v x)) as A3. pose proof (Rabs_pos X) as A4. pose proof (pos_INR K) as A5. assert (A6 : 0 <= INR K * w) by nra.
  destruct (f K) as [p|]; [|discriminate]. destruct (g K) as [p'|]; [|discriminate]. cbn [obind] in *. rewrite <- Rabs_mult in *. cbn in E. injection E as <-.
  pose proof (mul_real p p') as M. set (pr := (p * p' / 2 ^ frac)%Z) in *. pose proof (Rle_abs (v p * v p')) as A7. pose proof (Rle_abs (- (v p * v p'))) as A8. rewrite Rabs_Ropp in A8.
  cbn. rewrite res_real; [cbn; apply res_real|].
  - pose proof (Rle_abs (v x)). pose proof (Rle_abs (- v x)) as A9. rewrite Rabs_Ropp in A9. pose proof (Rle_abs X). pose proof (Rle_abs (- X)) as A10. rewrite Rabs_Ropp in A10. apply Rabs_def1; lra.
  - apply Rabs_def1; fold pr; lra.
Qed.

Variables (n : nat) (S L : nat -> nat -> option Z) (sig lam : R).
Notation l i j := (q (L i j)).
Definition sa (i j : nat) : R := q (S (Nat.min i j) (Nat.max i j)).
Hypothesis Hn : (1 <= n)%nat.
Hypothesis Hsig : forall i, (i < n)%nat -> q (S i i) <= sig.
Hypothesis Heig : eig_above n sa lam.
Hypothesis HR : fx_ch_ready bits frac n sig lam.

Lemma sa_sym i j : sa i j = sa j i. Proof. unfold sa. rewrite Nat.min_comm, Nat.max_comm. reflexivity. Qed.
Lemma sa_sig i : (i < n)%nat -> sa i i <= sig. Proof. intros Hi. unfold sa. rewrite Nat.min_id, Nat.max_id. apply Hsig, Hi. Qed.
Lemma HR' : 0 < lam /\ 2 * (INR n + 1) * eps w n sig <= lam. Proof. destruct HR as (R1 & R2 & _). split; [exact R1|exact R2]. Qed.
Lemma to_rcol i : (i < n)%nat -> b_column NU n S L i -> rcol w n sa (fun i j => l i j) i.
Proof.
  intros Hi H. pose proof (column_real _ _ _ _ _ (column_bound frac Hf n S L i H)) as (G1 & G2 & G3). split; [exact G1|]. split.
  - unfold sa. rewrite Nat.min_id, Nat.max_id. exact G2.
  - intros j Hj. unfold sa. rewrite Nat.min_l, Nat.max_r by lia. apply G3, Hj.
Qed.
Lemma have_cols J : (J <= n)%nat -> (forall i, (i < J)%nat -> b_column NU n S L i) -> cols w n sa (fun i j => l i j) sig lam J.
Proof. intros HJ H. apply all_cols; auto; [exact w_bounds|exact sa_sym|exact sa_sig|exact HR'|]. intros i Hi. apply to_rcol; [lia|apply H, Hi]. Qed.

Lemma never_refused : ~ b_no_factor NU n S L.
Proof.
  intros (i & s & d & Hi & HB & Es & Hle & _). destruct (have_cols i ltac:(lia) HB) as (_ & _ & _ & C4). specialize (C4 i ltac:(lia)).
  pose proof (gap w n sa sig lam w_bounds Hn sa_sym sa_sig Heig HR') as G. destruct (S i i) as [x|] eqn:Ex; [|discriminate]. cbn [obind] in Es. cbn in Hle. apply Z.leb_le in Hle.
  pose proof (refused_bound frac Hf S L i x s Ex Es Hle) as H. apply Qle_Rle in H. rewrite Q2R_qsum in H. rewrite (rsum_ext _ _ (fun k => l i k * l i k)) in H by (intros; apply Q2R_mult).
  unfold sa in C4. rewrite Nat.min_id, Nat.max_id in C4. lra.
Qed.

Lemma abs_of_square x y : x * x <= y -> Rabs x <= (1 + y) / 2.
Proof. intros H. pose proof (Rle_0_sqr (Rabs x - 1)) as Q. unfold Rsqr in Q. pose proof (Rsqr_abs x) as E. unfold Rsqr in E. rewrite E in H. lra. Qed.

Lemma fit_factor : b_factor NU n S L -> b_factor NC n S L /\ b_idle NC n S L.
Proof.
  intros (HB & HZ). destruct (have_cols n (le_n n) HB) as (C1 & C2 & C3 & _). pose proof w_bounds as Hw. pose proof HR as (R1 & R2 & R3).
  pose proof (sig_pos w n sa sig lam Hn sa_sym sa_sig Heig HR') as S0. pose proof (tau_pos w n sa sig lam w_bounds Hn sa_sym sa_sig Heig HR') as (T1 & T2). fold (fx_tau frac n sig) in T1, T2.
  change (FixedSolve.tau w n sig) with (fx_tau frac n sig) in *. set (tau := fx_tau frac n sig) in *.
  assert (H2l : 0 < 2 / lam) by (apply Rdiv_lt_0_compat; lra).
  assert (T3 : 2 * (1 + tau) < top) by nra. 
  assert (Z : forall i k, (i < k < n)%nat -> l i k = 0). { intros i k Hk. rewrite (HZ i k Hk). change (v 0 = 0). rewrite (Qeq_eqR _ _ (v_0 frac Hf)). apply Q2R_0. }
  assert (ROW : forall i J, (J <= Datatypes.S i)%nat -> (i < n)%nat -> rsum J (fun k => l i k * l i k) <= tau).
  { intros i J HJ Hi. eapply Rle_trans; [|apply (C2 i Hi)]. apply Nat.le_exists_sub in HJ. destruct HJ as (d & E & _). rewrite E. clear E. induction d as [|d IH]; cbn [Nat.add rsum]; [lra|]. pose proof (Rle_0_sqr (l i (d + J)%nat)) as Q. unfold Rsqr in Q. lra. }
  assert (NW : forall i, (i < n)%nat -> INR i * w <= tau - sig). { intros i Hi. unfold tau, fx_tau. assert (INR i <= INR n) by (apply le_INR; lia). nra. }
  assert (SUB : forall i j x r, (i <= j < n)%nat -> S i j = Some x -> subdot NU i x (fun k => L i k) (fun k => L j k) = Some r -> subdot NC i x (fun k => L i k) (fun k => L j k) = Some r).
  { intros i j x r Hij Ex E. apply subdot_fit; [exact E|]. cbv beta. pose proof (off_up w n sa sig lam Hn sa_sym sa_sig Heig HR' i j ltac:(lia) ltac:(lia)) as O. unfold sa in O. rewrite Nat.min_l, Nat.max_r, Ex in O by lia.
    pose proof (cs_mean i (fun k => l i k) (fun k => l j k)) as CM. cbv beta in CM. pose proof (ROW i i ltac:(lia) ltac:(lia)). pose proof (ROW j i ltac:(lia) ltac:(lia)). pose proof (NW i ltac:(lia)). lra. }
  assert (REC : forall i s, (i < n)%nat -> (0 < s)%Z -> L i i = Some (fx_l frac s) -> fx_res bits true (fx_r frac s) = Some (fx_r frac s) /\ 0 <= v (fx_r frac s) <= 1 + 2 / lam).
  { intros i s Hi Hs EL. destruct (inv_facts frac Hf s Hs) as (_ & F1 & _ & _ & F4 & F5 & _). apply Qle_Rle in F4, F5. rewrite Q2R_0 in F4. rewrite Q2R_1, Q2R_mult in F5.
    destruct (C1 i Hi) as (D1 & D2). cbv beta in D1, D2. rewrite EL in D1, D2. set (d := v (fx_r frac s)) in *. set (ll := v (fx_l frac s)) in *.
    assert (Q : d <= 1 + 2 / lam).
    { assert (d * d * (lam / 2) <= 1). { assert (d * d * (lam / 2) <= d * d * (ll * ll)) by (apply Rmult_le_compat_l; nra). assert (Z0 : 0 <= d * ll) by (apply Rmult_le_pos; lra). assert (Z2 : (d * ll) * (d * ll) <= 1 * 1) by (apply Rmult_le_compat; lra). lra. }
      assert (d * d <= 2 / lam). { apply Rmult_le_reg_r with (lam / 2); [lra|]. replace (2 / lam * (lam / 2)) with 1 by (field; lra). exact H. }
      pose proof (abs_of_square d _ H0). rewrite Rabs_pos_eq in H1 by exact F4. lra. }
    split; [|lra]. apply res_real. fold d. rewrite Rabs_pos_eq by exact F4. nra. }
  assert (COL : forall i, (i < n)%nat -> exists x s, S i i = Some x /\ subdot NC i x (fun k => L i k) (fun k => L i k) = Some s /\ (0 < s)%Z /\ L i i = Some (fx_l frac s) /\ 0 <= v s <= tau /\
    forall j, (i < j < n)%nat -> L j i = b_mul NC (obind (S i j) (fun a => subdot NC i a (fun k => L i k) (fun k => L j k))) (Some (fx_r frac s)) /\ L j i <> None).
  { intros i Hi. destruct (HB i Hi) as (s & ll & d & B1 & B2 & B3 & B4 & B5 & B6). destruct (S i i) as [x|] eqn:Ex; [|discriminate]. cbn [obind] in B1. exists x, s. split; [reflexivity|].
    split; [apply SUB; auto; lia|]. cbn in B2. apply Z.leb_gt in B2. split; [exact B2|]. cbn in B3. destruct (Z.ltb_spec s 0); [lia|]. injection B3 as <-. change (Z.sqrt (s * 2 ^ frac)) with (fx_l frac s) in *.
    destruct (inv_facts frac Hf s B2) as (L0 & _). cbn in B4. destruct (Z.eqb_spec (fx_l frac s) 0); [lia|]. injection B4 as <-. change (Z.quot (2 ^ frac * 2 ^ frac) (fx_l frac s)) with (fx_r frac s) in *.
    split; [exact B5|]. split.
    - pose proof (subdot_real i x _ _ s B1) as G. cbv zeta in G. pose proof (rsum_sq_abs i (fun k => l i k)). cbv beta in H0. pose proof (sa_sig i Hi) as G2. unfold sa in G2. rewrite Nat.min_id, Nat.max_id, Ex in G2.
      pose proof (NW i Hi). split; [|lra]. rewrite <- Q2R_0. apply Qle_Rle. rewrite <- (v_0 frac Hf). apply (proj2 (fval_le frac Hf _ _)). lia.
    - intros j Hj. destruct (B6 j Hj) as (E & E'). split; [|exact E']. rewrite E in E' |- *. unfold b_mul in *. destruct (S i j) as [y|] eqn:Ey; cbn [obind] in *; [|congruence].
      destruct (subdot NU i y _ _) as [t|] eqn:Et; cbn [obind] in *; [|congruence]. rewrite (SUB i j y t ltac:(lia) Ey Et). cbn [obind]. cbn in E |- *. symmetry. apply res_real.
      pose proof (ROW j (Datatypes.S i) ltac:(lia) ltac:(lia)) as G. cbn [rsum] in G. pose proof (rsum_sq_abs i (fun k => l j k)) as G2. cbv beta in G2. rewrite E in G.
      set (pv := v (t * fx_r frac s / 2 ^ frac)) in *. assert (G3 : pv * pv <= tau) by lra. pose proof (abs_of_square pv tau G3). lra. }
  split; [split; [|exact HZ]|].
  - intros i Hi. destruct (COL i Hi) as (x & s & Ex & Es & Hs & EL & _ & HJ). destruct (REC i s Hi Hs EL) as (ER & _). destruct (inv_facts frac Hf s Hs) as (L0 & _).
    exists s, (fx_l frac s), (fx_r frac s). rewrite Ex. cbn [obind]. split; [exact Es|]. split; [cbn; apply Z.leb_gt; exact Hs|]. split; [cbn; destruct (Z.ltb_spec s 0); [lia|reflexivity]|].
    split; [cbn; destruct (Z.eqb_spec (fx_l frac s) 0); [lia|exact ER]|]. split; [exact EL|exact HJ].
  - intros i Hi. destruct (COL i Hi) as (x & s & Ex & Es & Hs & EL & Bs & _). unfold b_pivot. rewrite Ex. cbn [obind]. rewrite Es. unfold b_mul. cbn [obind].
    destruct i as [|k].
    + cbn. rewrite Z.mul_0_r. rewrite Z.div_0_l by (pose proof (Bpos frac Hf); lia). rewrite res_real; [discriminate|]. rewrite (Qeq_eqR _ _ (v_0 frac Hf)), Q2R_0, Rabs_R0. lra.
    + destruct (COL k ltac:(lia)) as (x' & s' & _ & _ & Hs' & EL' & _). rewrite EL'. cbn [obind]. destruct (REC k s' ltac:(lia) Hs' EL') as (ER & Bd). destruct (inv_facts frac Hf s' Hs') as (L0 & _).
      cbn. destruct (Z.eqb_spec (fx_l frac s') 0); [lia|]. change (Z.quot (2 ^ frac * 2 ^ frac) (fx_l frac s')) with (fx_r frac s'). rewrite ER. cbn [obind]. rewrite res_real; [discriminate|].
      pose proof (mul_real s (fx_r frac s')) as M. set (d := v (fx_r frac s')) in *. set (sv := v s) in *.
      assert (0 <= sv * d <= tau * (1 + 2 / lam)) by (split; [apply Rmult_le_pos; lra|apply Rmult_le_compat; lra]). apply Rabs_def1; nra.
Qed.
End Fit.

(** ** the decomposition itself *)
Section Main.
Variables (c : cfg) (bits frac : Z).
Hypothesis Hf : (0 <= frac)%Z.
Notation NC := (fx_num bits frac true true).
Notation NU := (unlimited frac).

Lemma unlimited_total : num_total NU.
Proof.
  split; [discriminate|]. split; [discriminate|]. split; [discriminate|]. split; [discriminate|]. cbn. intros s Hs. apply Z.leb_gt in Hs. destruct (Z.ltb_spec s 0); [lia|].
  exists (fx_l frac s). split; [reflexivity|]. destruct (inv_facts frac Hf s Hs) as (L0 & _). destruct (Z.eqb_spec (fx_l frac s) 0); [lia|discriminate].
Qed.

Theorem fx_accepts n (A : list Z) (sig lam : R) : (1 <= n)%nat -> valid c n n A ->
  (forall i, (i < n)%nat -> fcell frac n A i i <= sig) -> eig_above n (fx_upper_sym frac n A) lam -> fx_ch_ready bits frac n sig lam ->
  exists L, (forall oc da, cholesky_decompose_lower c (fx_num bits frac oc da) n n A = Ok (true, L)) /\
    (forall i, (i < n)%nat -> 0 < fcell frac n L i i /\ lam / 2 <= fcell frac n L i i * fcell frac n L i i) /\
    (forall i, (i < n)%nat -> rsum n (fun k => fcell frac n L i k * fcell frac n L i k) <= fx_tau frac n sig) /\
    (forall i j, (i < n)%nat -> (j < n)%nat -> Rabs (fx_upper_sym frac n A i j - rsum n (fun k => fcell frac n L i k * fcell frac n L j k)) <= fx_eps frac n sig).
Proof.
  intros Hn V Hsig Heig HR. pose proof (cholesky_spec c NU n A Hn V) as HS.
  destruct (cholesky_decompose_lower c NU n n A) as [[b L0]|er] eqn:EC; [clear HS|exfalso; apply (proj2 HS), unlimited_total].
  destruct (cholesky_bits c NU n A b L0 Hn V EC) as (_ & HB). destruct b; [|exfalso; exact (never_refused bits frac Hf n (cell n A) (cell n L0) sig lam Hn Hsig Heig HR HB)].
  destruct (fit_factor bits frac Hf n (cell n A) (cell n L0) sig lam Hn Hsig Heig HR HB) as (F1 & F2).
  destruct (cholesky_complete c NC n A (cell n L0) Hn V F1 F2) as (L & EL & CL).
  exists L. split; [intros oc da; exact (nsim_ok _ _ _ (nsim_cholesky c NC _ (fx_refines bits frac oc da) n n A) EL)|].
  destruct (have_cols bits frac Hf n (cell n A) (cell n L0) sig lam Hn Hsig Heig HR n (le_n n) (proj1 HB)) as (C1 & C2 & C3 & _).
  assert (EQ : forall i j, (i < n)%nat -> (j < n)%nat -> fcell frac n L i j = Q2R (match cell n L0 i j with Some z => fval frac z | None => 0%Q end)).
  { intros i j Hi Hj. unfold fcell, qcell. rewrite (CL i j Hi Hj). reflexivity. }
  assert (Z : forall i k, (i < k < n)%nat -> fcell frac n L i k = 0). { intros i k Hk. rewrite EQ by lia. rewrite (proj2 HB i k Hk). change (Q2R (fval frac 0) = 0). rewrite (Qeq_eqR _ _ (v_0 frac Hf)). apply Q2R_0. }
  split; [intros i Hi; rewrite (EQ i i Hi Hi); apply (C1 i Hi)|]. split.
  - intros i Hi. rewrite (rsum_trunc (S i) n) by (first [lia|intros p Hp; rewrite Z by lia; ring]). eapply Rle_trans; [right; apply rsum_ext; intros p Hp; rewrite EQ by lia; reflexivity|apply (C2 i Hi)].
  - assert (G : forall i j, (i <= j < n)%nat -> Rabs (fx_upper_sym frac n A i j - rsum n (fun k => fcell frac n L i k * fcell frac n L j k)) <= fx_eps frac n sig).
    { intros i j Hij. rewrite (rsum_trunc (S i) n) by (first [lia|intros p Hp; rewrite Z by lia; ring]).
      rewrite (rsum_ext _ _ (fun p => Q2R (match cell n L0 i p with Some z => fval frac z | None => 0%Q end) * Q2R (match cell n L0 j p with Some z => fval frac z | None => 0%Q end))) by (intros p Hp; rewrite !EQ by lia; reflexivity).
      apply (C3 i j); lia. }
    intros i j Hi Hj. destruct (Nat.le_ge_cases i j); [apply G; lia|].
    unfold fx_upper_sym. rewrite Nat.min_comm, Nat.max_comm. rewrite (rsum_ext n (fun k => fcell frac n L i k * fcell frac n L j k) (fun k => fcell frac n L j k * fcell frac n L i k)) by (intros; ring). apply G. lia.
Qed.
End Main.

Theorem fx_accepted (c : cfg) bits frac : (0 <= frac)%Z -> forall n (A L : list Z) (sig : R), (1 <= n)%nat -> valid c n n A ->
  cholesky_decompose_lower c (fx_num bits frac true true) n n A = Ok (true, L) ->
  (forall i j, (i <= j < n)%nat -> Rabs (fcell frac n A i j) <= sig) ->
  eig_above n (fx_upper_sym frac n A) (- (INR n * fx_eps frac n sig)).
Proof.
  intros Hf n A L sig Hn V E Hsig. destruct (fx_factor c bits frac Hf n A L true Hn V E) as (HC & HZ). pose proof (w_bounds frac Hf) as Hw.
  set (l := fcell frac n L). set (a := fcell frac n A) in *. set (w := fx_w frac) in *. assert (HN : 1 <= INR n) by (change 1 with (INR 1); apply le_INR, Hn).
  assert (K : forall i, (i < n)%nat -> 0 < l i i /\ - (INR i * w) <= a i i - rsum (S i) (fun k => l i k * l i k) <= (2 * l i i + w) * w /\
    forall j, (i < j < n)%nat -> Rabs (a i j - rsum (S i) (fun k => l i k * l j k)) <=
      INR i * w + (1 + Rabs (a i j) + rsum i (fun k => Rabs (l i k) * Rabs (l j k)) + INR i * w) * (l i i * w)).
  { intros i Hi. exact (column_real _ _ _ _ _ (HC i Hi)). }
  assert (Z : forall i k, (i < k < n)%nat -> l i k = 0). { intros i k Hk. unfold l, fcell, qcell. rewrite (HZ i k Hk). rewrite (Qeq_eqR _ _ (v_0 frac Hf)). apply Q2R_0. }
  set (tau := fx_tau frac n sig).
  assert (S0 : 0 <= sig) by (eapply Rle_trans; [apply Rabs_pos|apply (Hsig 0%nat 0%nat); lia]).
  assert (NW : forall i, (i < n)%nat -> 0 <= INR i * w <= tau - sig). { intros i Hi. unfold tau, fx_tau. fold w. assert (INR i <= INR n) by (apply le_INR; lia). pose proof (pos_INR i). nra. }
  assert (ROW : forall i, (i < n)%nat -> rsum (S i) (fun k => l i k * l i k) <= tau). { intros i Hi. destruct (K i Hi) as (_ & (K2 & _) & _). pose proof (Hsig i i ltac:(lia)) as G. pose proof (Rle_abs (a i i)). pose proof (NW i Hi). lra. }
  assert (ROW' : forall i J, (J <= S i)%nat -> (i < n)%nat -> rsum J (fun k => l i k * l i k) <= tau).
  { intros i J HJ Hi. eapply Rle_trans; [|apply (ROW i Hi)]. apply Nat.le_exists_sub in HJ. destruct HJ as (d & Ed & _). rewrite Ed. clear Ed. induction d as [|d IH]; cbn [Nat.add rsum]; [lra|]. pose proof (Rle_0_sqr (l i (d + J)%nat)) as Q. unfold Rsqr in Q. lra. }
  assert (T0 : 0 <= tau) by (unfold tau, fx_tau; fold w; nra).
  assert (HD : forall i, (i < n)%nat -> 0 < l i i /\ 2 * l i i <= 1 + tau).
  { intros i Hi. destruct (K i Hi) as (K1 & _). split; [exact K1|]. pose proof (ROW i Hi) as G. cbn [rsum] in G. pose proof (rsum_sq_abs i (l i)). pose proof (Rle_0_sqr (l i i - 1)) as Q. unfold Rsqr in Q. lra. }
  assert (EQ : forall i j, (i <= j < n)%nat -> Rabs (a i j - rsum n (fun k => l i k * l j k)) <= fx_eps frac n sig).
  { intros i j Hij. rewrite (rsum_trunc (S i) n) by (first [lia|intros p Hp; rewrite Z by lia; ring]). destruct (K i ltac:(lia)) as (K1 & (K2 & K3) & K4). destruct (HD i ltac:(lia)) as (_ & D2). pose proof (NW i ltac:(lia)) as G.
    unfold fx_eps. fold tau w. assert (HN' : INR i <= INR n) by (apply le_INR; lia). assert (INR i * w <= INR n * w) by (apply Rmult_le_compat_r; lra).
    destruct (Nat.eq_dec i j) as [<-|Hne].
    - assert ((2 * l i i + w) * w <= (2 + tau) * w) by (apply Rmult_le_compat_r; lra). assert ((2 + tau) * w <= (INR n + (1 + tau) ^ 2) * w) by (apply Rmult_le_compat_r; nra).
      assert (0 <= (1 + tau) ^ 2 * w) by (apply Rmult_le_pos; [apply pow2_ge_0|lra]). apply Rabs_le. rewrite Rmult_plus_distr_r in *. lra.
    - eapply Rle_trans; [apply K4; lia|]. pose proof (Hsig i j Hij) as HA. pose proof (Rabs_pos (a i j)). pose proof (cs_mean i (l i) (l j)) as CM. pose proof (ROW' i i ltac:(lia) ltac:(lia)). pose proof (ROW' j i ltac:(lia) ltac:(lia)).
      assert (0 <= rsum i (fun k => Rabs (l i k) * Rabs (l j k))) by (apply rsum_pos; intros; apply Rmult_le_pos; apply Rabs_pos).
      set (X := rsum i (fun k => Rabs (l i k) * Rabs (l j k))) in *. set (ll := l i i) in *.
      assert (Z1 : 1 + Rabs (a i j) + X + INR i * w <= 2 * (1 + tau)) by lra.
      assert (Z2 : (1 + Rabs (a i j) + X + INR i * w) * (ll * w) <= 2 * (1 + tau) * (ll * w)) by (apply Rmult_le_compat_r; [nra|exact Z1]).
      assert (Z3 : 2 * (1 + tau) * (ll * w) <= (1 + tau) ^ 2 * w). { replace (2 * (1 + tau) * (ll * w)) with ((1 + tau) * w * (2 * ll)) by ring. replace ((1 + tau) ^ 2 * w) with ((1 + tau) * w * (1 + tau)) by ring. apply Rmult_le_compat_l; [nra|exact D2]. }
      rewrite Rmult_plus_distr_r. lra. }
  assert (EQ' : forall i j, (i < n)%nat -> (j < n)%nat -> Rabs (fx_upper_sym frac n A i j - rsum n (fun k => l i k * l j k)) <= fx_eps frac n sig).
  { intros i j Hi Hj. unfold fx_upper_sym. destruct (Nat.le_ge_cases i j); [rewrite Nat.min_l, Nat.max_r by lia; apply EQ; lia|].
    rewrite Nat.min_r, Nat.max_l by lia. rewrite (rsum_ext n (fun k => l i k * l j k) (fun k => l j k * l i k)) by (intros; ring). apply EQ. lia. }
  assert (D : 0 <= fx_eps frac n sig) by (eapply Rle_trans; [apply Rabs_pos|apply (EQ' 0%nat 0%nat); lia]).
  intros x. pose proof (quad_near n (fx_upper_sym frac n A) _ _ x D EQ') as Q. rewrite quad_square in Q. cbv beta in Q.
  pose proof (rsum_sq_abs n (fun p => rsum n (fun i => l i p * x i))) as Q2. cbv beta in Q2. lra.
Qed.
