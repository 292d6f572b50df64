(** * A well-conditioned matrix has a floating-point Cholesky factor *)
From Coq Require Import ZArith Reals Lia Lra Psatz.
From Flocq Require Import Core BinarySingleNaN.
From Verif Require Import Prelude Spec SpecBits Matrix Filter SpecFilter Kernels FloatNum SpecFloats SpecReal SpecRange SpecSolve FloatFlocq FloatOps FloatErr FloatChol FloatPredict FloatRange FloatFactor FloatScalar RealSchur BitsProof.
Import SpecFloat.
Open Scope R_scope.

Section Solve.
Variables (prec emax : Z) (sz : bool).
Hypothesis HF : format_ok prec emax.
Hypothesis H4 : (4 <= emax)%Z.
Notation NN := (sf_num prec emax sz).
#[local] Instance hprec : Prec_gt_0 prec. Proof. unfold Prec_gt_0. destruct HF. lia. Qed.
#[local] Instance hmax : Prec_lt_emax prec emax. Proof. apply HF. Qed.
Notation vf := (valid_binary prec emax).
Notation u := (uro prec). Notation e := (eta prec emax). Notation tb := (too_big emax).
Notation given := (given prec emax).

Lemma sub_fin a b : vf a = true -> vf b = true -> sf_finite a = true -> sf_finite b = true -> (1 + u) * (Rabs (val a) + Rabs (val b)) < tb -> sf_finite (SFsub prec emax a b) = true.
Proof.
  intros Va Vb Fa Fb H. rewrite sub_add. apply (add_fin prec emax HF); auto; [apply vf_opp; auto|rewrite fin_opp; auto|]. rewrite val_opp.
  pose proof (Rabs_triang (val a) (- val b)) as T. rewrite Rabs_Ropp in T. pose proof (uro_pos prec). nra.
Qed.
Definition sroom (K : nat) (a : R) (f g : nat -> option spec_float) : R := (1 + u) ^ (K + 1) * (Rabs a + rsum K (fun k => Rabs (oval (f k)) * Rabs (oval (g k))) + INR K * e).
Lemma subdot_fin K a f g : vf a = true -> sf_finite a = true -> given K f -> given K g -> allfin K f -> allfin K g -> sroom K (val a) f g < tb ->
  exists s, subdot NN K a f g = Some s /\ vf s = true /\ sf_finite s = true /\ Rabs (val s) <= sroom K (val a) f g.
Proof.
  intros Va Fa. pose proof (uro_pos prec) as Hu. pose proof (eta_pos prec emax) as He.
  induction K as [|K IH]; intros Gf Gg Af Ag HR.
  - exists a. repeat (split; [first [reflexivity|assumption]|]). unfold sroom. cbn [rsum Nat.add pow INR]. pose proof (Rabs_pos (val a)). nra.
  - assert (Gf' : given K f) by (eapply given_le; eauto). assert (Gg' : given K g) by (eapply given_le; eauto).
    assert (HT : 0 <= rsum K (fun k => Rabs (oval (f k)) * Rabs (oval (g k)))) by (apply rsum_pos; intros; apply Rmult_le_pos; apply Rabs_pos).
    destruct (Gf K ltac:(lia)) as (x & Ex & Vx). destruct (Gg K ltac:(lia)) as (y & Ey & Vy).
    assert (Fx : sf_finite x = true) by (apply (Af K x); auto). assert (Fy : sf_finite y = true) by (apply (Ag K y); auto).
    pose proof (pow_R1_Rle (1 + u) (K + 1) ltac:(lra)) as Hq. pose proof (pos_INR K) as HK. pose proof (Rabs_pos (val a)) as Ha.
    unfold sroom in *. replace (S K + 1)%nat with (S (K + 1)) in * by lia. cbn [pow rsum] in *. rewrite S_INR in *. rewrite Ex, Ey in HR |- *. cbn [oval] in HR |- *. rewrite <- Rabs_mult in HR |- *.
    set (q := (1 + u) ^ (K + 1)) in *. set (T := rsum K _) in *. set (t := val x * val y) in *. pose proof (Rabs_pos t) as Ht. set (at_ := Rabs t) in *. set (aa := Rabs (val a)) in *.
    assert (B0 : 0 <= aa + T + INR K * e) by (assert (0 <= INR K * e) by (apply Rmult_le_pos; lra); lra).
    assert (Hle : q * (aa + T + INR K * e) <= (1 + u) * q * (aa + (T + at_) + (INR K + 1) * e)).
    { apply Rmult_le_compat; try lra; nra. }
    destruct IH as (s & Es & Vs & Fs & Bs); auto; [intros k z Hk; apply Af; lia|intros k z Hk; apply Ag; lia|lra|].
    assert (HKe : 0 <= INR K * e) by (apply Rmult_le_pos; lra).
    assert (Hm : (1 + u) * at_ + e < tb).
    { eapply Rle_lt_trans; [|exact HR]. apply Rle_trans with ((1 + u) * q * (at_ + e)).
      - apply Rle_trans with ((1 + u) * 1 * (at_ + e)); [nra|]. apply Rmult_le_compat_r; [lra|]. apply Rmult_le_compat_l; lra.
      - apply Rmult_le_compat_l; [apply Rmult_le_pos; lra|]. lra. }
    assert (Fm : sf_finite (SFmul prec emax x y) = true) by (apply (mul_fin prec emax HF); auto).
    assert (Vm : vf (SFmul prec emax x y) = true) by (apply vf_mul; auto with typeclass_instances).
    destruct (mul_err_both prec emax _ _ x y Vx Vy Fm) as (Em & _). fold t in Em. fold at_ in Em.
    assert (Hp : Rabs (val (SFmul prec emax x y)) <= (1 + u) * at_ + e).
    { replace (val (SFmul prec emax x y)) with ((val (SFmul prec emax x y) - t) + t) by ring. eapply Rle_trans; [apply Rabs_triang|]. fold at_. lra. }
    assert (Hsum : (1 + u) * (Rabs (val s) + Rabs (val (SFmul prec emax x y))) <= (1 + u) * q * (aa + (T + at_) + (INR K + 1) * e)).
    { rewrite Rmult_assoc. apply Rmult_le_compat_l; [lra|]. apply Rle_trans with (q * (aa + T + INR K * e) + ((1 + u) * at_ + e)); [lra|].
      assert ((1 + u) * at_ + e <= q * at_ + q * e); [|nra].
      assert (1 + u <= q). { unfold q. rewrite pow_add, pow_1. pose proof (pow_R1_Rle (1 + u) K ltac:(lra)). nra. } nra. }
    assert (Fd : sf_finite (SFsub prec emax s (SFmul prec emax x y)) = true) by (apply sub_fin; auto; lra).
    exists (SFsub prec emax s (SFmul prec emax x y)). split; [cbn [subdot]; rewrite Es, Ex, Ey; reflexivity|]. split; [apply vf_sub; auto with typeclass_instances|]. split; [exact Fd|].
    destruct (sub_err_both prec emax _ _ s _ Vs Vm Fd) as (Eb & _). set (r := val (SFsub _ _ _ _)) in *. set (p := val (SFmul prec emax x y)) in *.
    replace r with ((r - (val s - p)) + (val s - p)) by ring. eapply Rle_trans; [apply Rabs_triang|].
    pose proof (Rabs_triang (val s) (- p)) as Tr. rewrite Rabs_Ropp in Tr. unfold Rminus in Eb |- *. nra.
Qed.

(** every cell of the n x n matrix exists, is representable and finite *)
Definition fin_cells (n : nat) (M : nat -> nat -> option spec_float) : Prop := forall i j, (i < n)%nat -> (j < n)%nat -> exists x, M i j = Some x /\ vf x = true /\ sf_finite x = true.

(** ** the factor, column by column *)
Variables (n : nat) (S L : nat -> nat -> option spec_float) (sig lam : R).
Hypothesis Hn : (1 <= n)%nat.
Hypothesis HS : forall i j, (i <= j < n)%nat -> exists x, S i j = Some x /\ vf x = true /\ sf_finite x = true.
Definition sa (i j : nat) : R := oval (S (Nat.min i j) (Nat.max i j)).
Notation a := sa.
Lemma sym i j : a i j = a j i. Proof. unfold sa. rewrite Nat.min_comm, Nat.max_comm. reflexivity. Qed.
Hypothesis Hsig : forall i, (i < n)%nat -> oval (S i i) <= sig.
Hypothesis Heig : eig_above n a lam.
Hypothesis HR : ch_ready prec emax n sig lam.
Notation gam := (ch_gam prec n). Notation h := (ch_h prec emax n). Notation tau := (ch_tau prec emax n sig). Notation eps := (ch_eps prec emax n sig).
Notation N := (INR n).
Notation l i k := (oval (L i k)).

Lemma basics : 0 < u <= / 4 /\ 0 < e /\ 1 <= N /\ 0 <= gam <= / 2 /\ e <= h /\ h <= / 2 /\ 0 < lam /\ (forall j, (j <= n + 3)%nat -> 1 <= (1 + u) ^ j <= 1 + gam) /\ (forall j, (j <= n)%nat -> (1 + u) ^ j * e <= h).
Proof.
  pose proof (u_small prec emax HF) as Hu. pose proof (eta_pos prec emax) as He. destruct HR as (R1 & R2 & _).
  assert (HN : 1 <= N) by (change 1 with (INR 1); apply le_INR, Hn).
  assert (HP : forall j k, (j <= k)%nat -> 1 <= (1 + u) ^ j <= (1 + u) ^ k). { intros j k Hj. split; [apply pow_R1_Rle; lra|apply Rle_pow; [lra|exact Hj]]. }
  assert (Hh : forall j, (j <= n)%nat -> (1 + u) ^ j * e <= h). { intros j Hj. unfold ch_h. apply Rmult_le_compat_r; [lra|]. apply HP, Hj. }
  pose proof (Hh 0%nat ltac:(lia)) as Hh0. cbn [pow] in Hh0. pose proof (HP 0%nat (n + 3)%nat ltac:(lia)) as Hg0. cbn [pow] in Hg0.
  assert (HG : 0 <= gam) by (unfold ch_gam; lra).
  repeat (split; [lra|]). split; [|exact Hh]. intros j Hj. unfold ch_gam. replace (1 + ((1 + u) ^ (n + 3) - 1)) with ((1 + u) ^ (n + 3)) by ring. apply HP, Hj.
Qed.

(** test vectors *)
Lemma quad_pick m r (w : nat -> R) : (m <= r < n)%nat ->
  lam * (rsum m (fun k => w k * w k) + 1) <= rsum m (fun k => rsum m (fun q => a k q * w k * w q)) - 2 * rsum m (fun k => a k r * w k) + a r r.
Proof.
  intros Hr. set (v := fun k => if Nat.ltb k m then - w k else if Nat.eqb k r then 1 else 0). pose proof (Heig v) as H. unfold quad in H.
  assert (v0 : forall p, (m <= p < n)%nat -> p <> r -> v p = 0). { intros p Hp Hne. unfold v. destruct (Nat.ltb_spec p m); [lia|]. destruct (Nat.eqb_spec p r); [lia|reflexivity]. }
  assert (vr : v r = 1). { unfold v. destruct (Nat.ltb_spec r m); [lia|]. rewrite Nat.eqb_refl. reflexivity. }
  assert (vm : forall p, (p < m)%nat -> v p = - w p). { intros p Hp. unfold v. destruct (Nat.ltb_spec p m); [reflexivity|lia]. }
  rewrite (rsum_pick m r n (fun i => v i * v i)) in H by (first [lia|intros p Hp Hne; rewrite (v0 p Hp Hne); ring]).
  rewrite (rsum_pick m r n (fun i => rsum n (fun j => a i j * v i * v j))) in H by (first [lia|intros p Hp Hne; apply rsum_zero; intros q Hq; rewrite (v0 p Hp Hne); ring]).
  rewrite (rsum_pick m r n (fun j => a r j * v r * v j)) in H by (first [lia|intros p Hp Hne; rewrite (v0 p Hp Hne); ring]). cbv beta in H.
  rewrite (rsum_ext m (fun i => rsum n (fun j => a i j * v i * v j)) (fun i => rsum m (fun j => a i j * w i * w j) + - (a i r * w i))) in H.
  2:{ intros i Hi. rewrite (rsum_pick m r n (fun j => a i j * v i * v j)) by (first [lia|intros p Hp Hne; rewrite (v0 p Hp Hne); ring]). cbv beta. rewrite vr, (vm i Hi). f_equal; [|ring].
      apply rsum_ext. intros j Hj. rewrite (vm j Hj). ring. }
  rewrite (rsum_ext m (fun j => a r j * v r * v j) (fun j => - (a j r * w j))) in H by (intros j Hj; rewrite vr, (vm j Hj), (sym r j); ring).
  rewrite (rsum_ext m (fun i => v i * v i) (fun i => w i * w i)) in H by (intros i Hi; rewrite (vm i Hi); ring).
  rewrite rsum_plus, vr in H.
  assert (EN : rsum m (fun k => - (a k r * w k)) = - rsum m (fun k => a k r * w k)). { replace (- rsum m _) with (-1 * rsum m (fun k => a k r * w k)) by ring. rewrite <- rsum_scal. apply rsum_ext. intros. ring. }
  rewrite EN in H. lra.
Qed.
Lemma diag_low i : (i < n)%nat -> lam <= a i i.
Proof. intros Hi. pose proof (quad_pick 0 i (fun _ => 0) ltac:(lia)) as H. cbn [rsum] in H. lra. Qed.
Lemma diag_up i : (i < n)%nat -> a i i <= sig.
Proof. intros Hi. unfold sa. rewrite Nat.min_id, Nat.max_id. apply Hsig, Hi. Qed.
Lemma off_up i j : (i < n)%nat -> (j < n)%nat -> Rabs (a i j) <= sig.
Proof.
  intros Hi Hj. 
  assert (G : forall i j, (i < j < n)%nat -> Rabs (a i j) <= sig).
  { clear i j Hi Hj. intros i j Hij. pose proof (diag_up i ltac:(lia)) as D1. pose proof (diag_up j ltac:(lia)) as D2. 
    destruct basics as (_ & _ & _ & _ & _ & _ & Hl & _).
    assert (H : forall x, x * x = 1 -> 0 <= a i i - 2 * (x * a i j) + a j j).
    { intros x Hx. pose proof (quad_pick j j (fun k => if Nat.eqb k i then x else 0) ltac:(lia)) as H. cbv beta in H.
      rewrite (rsum_one j (fun k => (if Nat.eqb k i then x else 0) * (if Nat.eqb k i then x else 0)) i) in H by (first [lia|intros p Hp Hne; apply Nat.eqb_neq in Hne; rewrite Hne; ring]).
      rewrite (rsum_one j (fun k => rsum j (fun q => a k q * (if Nat.eqb k i then x else 0) * (if Nat.eqb q i then x else 0))) i) in H
        by (first [lia|intros p Hp Hne; apply Nat.eqb_neq in Hne; rewrite Hne; apply rsum_zero; intros; ring]).
      rewrite (rsum_one j (fun q => a i q * (if Nat.eqb i i then x else 0) * (if Nat.eqb q i then x else 0)) i) in H by (first [lia|intros p Hp Hne; apply Nat.eqb_neq in Hne; rewrite Hne; ring]).
      rewrite (rsum_one j (fun k => a k j * (if Nat.eqb k i then x else 0)) i) in H by (first [lia|intros p Hp Hne; apply Nat.eqb_neq in Hne; rewrite Hne; ring]).
      rewrite !Nat.eqb_refl in H. rewrite (Rmult_assoc (a i i) x x), Hx in H. lra. }
    pose proof (H 1 ltac:(ring)) as P1. pose proof (H (-1) ltac:(ring)) as P2. apply Rabs_le. lra. }
  destruct (lt_eq_lt_dec i j) as [[Hlt| ->]|Hlt].
  - apply G. lia.
  - pose proof (diag_low j Hj) as D1. pose proof (diag_up j Hj) as D2.  destruct basics as (_ & _ & _ & _ & _ & _ & Hl & _). apply Rabs_le. lra.
  - rewrite sym. apply G. lia.
Qed.

(** what holds of the first J columns *)
Definition cols (J : nat) : Prop :=
  (forall k i, (k < J)%nat -> (k <= i < n)%nat -> exists x, L i k = Some x /\ vf x = true /\ sf_finite x = true) /\
  (forall k, (k < J)%nat -> 0 < l k k /\ lam / 4 <= l k k * l k k) /\
  (forall k, (k < J)%nat -> rsum (Datatypes.S k) (fun p => l k p * l k p) <= tau) /\
  (forall k i, (k < J)%nat -> (k <= i < n)%nat -> Rabs (a k i - rsum (Datatypes.S k) (fun p => l k p * l i p)) <= gam * rsum (Datatypes.S k) (fun p => Rabs (l k p) * Rabs (l i p)) + eps) /\
  (forall i, (J <= i < n)%nat -> rsum J (fun p => l i p * l i p) <= a i i - (lam - N * eps)).

(** the pivot of column J, and the other entries before scaling *)
Lemma rest J i : (J <= i < n)%nat -> cols J -> exists x s, S J i = Some x /\ vf x = true /\ subdot NN J x (fun k => L J k) (fun k => L i k) = Some s /\ vf s = true /\ sf_finite s = true /\
  Rabs (val s) <= 3 / 2 * tau /\ Rabs (val x - val s - rsum J (fun k => l J k * l i k)) <= ((1 + u) ^ J - 1) * (Rabs (val s) + rsum J (fun k => Rabs (l J k) * Rabs (l i k))) + INR J * (1 + u) ^ J * e /\
  given J (fun k => L J k) /\ given J (fun k => L i k) /\ 0 <= rsum J (fun k => Rabs (l J k) * Rabs (l i k)) <= sig.
Proof.
  intros Hi (C1 & C2 & C3 & C4 & C5). destruct basics as (Hu & He & HN & Hg & Heh & Hh & Hl & HP & HE). destruct HR as (R1 & R2 & R3 & R4).
  assert (Row : forall r, (J <= r < n)%nat -> given J (fun k => L r k) /\ allfin J (fun k => L r k)).
  { intros r Hr. split; [intros k Hk|intros k x Hk Ex]; destruct (C1 k r Hk ltac:(lia)) as (x' & E' & V' & F'); [eauto|congruence]. }
  destruct (Row J ltac:(lia)) as (GJ & AJ). destruct (Row i Hi) as (Gi & Ai). destruct (HS J i ltac:(lia)) as (x & Ex & Vx & Fx).
  assert (Hx : Rabs (val x) <= sig). { pose proof (off_up J i ltac:(lia) ltac:(lia)) as H. unfold sa in H. rewrite Nat.min_l, Nat.max_r, Ex in H by lia. exact H. }
  assert (HSig : 0 <= sig) by (eapply Rle_trans; [apply Rabs_pos|exact Hx]).
  assert (Htau : 2 * sig + 2 * (N + 1) * h = tau) by (unfold ch_tau; ring).
  assert (Heps : 0 <= eps). { unfold ch_eps. apply Rmult_le_pos; [lra|]. nra. }
  assert (HNe : N * eps <= lam). { assert (0 <= 8 * N * gam * tau) by (repeat apply Rmult_le_pos; try lra; nra). nra. }
  assert (HT : 0 <= rsum J (fun k => Rabs (l J k) * Rabs (l i k)) <= sig).
  { split; [apply rsum_pos; intros; apply Rmult_le_pos; apply Rabs_pos|]. eapply Rle_trans; [apply cs_mean|].
    pose proof (C5 J ltac:(lia)) as T1. pose proof (C5 i Hi) as T2. pose proof (diag_up J ltac:(lia)). pose proof (diag_up i ltac:(lia)). lra. }
  pose proof (HP (J + 1)%nat ltac:(lia)) as HQ. assert (HJ : INR J <= N) by (apply le_INR; lia). pose proof (pos_INR J) as HJ0.
  assert (HB : sroom J (val x) (fun k => L J k) (fun k => L i k) <= 3 / 2 * tau).
  { unfold sroom. rewrite <- Htau. set (T := rsum J _) in *. apply Rle_trans with (3 / 2 * (sig + sig + N * h)).
    - assert (INR J * e <= N * h) by (apply Rmult_le_compat; lra). assert (0 <= INR J * e) by (apply Rmult_le_pos; lra). pose proof (Rabs_pos (val x)). apply Rmult_le_compat; lra.
    - nra. }
  assert (HBt : 3 / 2 * tau < tb). { eapply Rle_lt_trans; [|exact R4]. assert (0 < 16 / lam) by (apply Rmult_lt_0_compat; [lra|apply Rinv_0_lt_compat, Hl]). assert (0 <= tau) by nra. nra. }
  destruct (subdot_fin J x _ _ Vx Fx GJ Gi AJ Ai ltac:(lra)) as (s & Es & Vs & Fs & Bs). exists x, s. repeat (split; [first [assumption|lra]|]).
  split; [|auto]. apply (subdot_err prec emax sz HF J x _ _ s); auto.
Qed.

Lemma schur_row J i : (J < i < n)%nat -> cols J -> (forall k i, (k < Datatypes.S J)%nat -> (k <= i < n)%nat -> Rabs (a k i - rsum (Datatypes.S k) (fun p => l k p * l i p)) <= gam * rsum (Datatypes.S k) (fun p => Rabs (l k p) * Rabs (l i p)) + eps) ->
  0 < l J J -> rsum (Datatypes.S J) (fun p => l J p * l J p) <= tau ->
  rsum (Datatypes.S J) (fun p => l i p * l i p) <= a i i - (lam - N * eps).
Proof.
  intros Hi (C1 & C2 & C3 & C4 & C5) B HJJ HTJ. destruct basics as (Hu & He & HN & Hg & Heh & Hh & Hl & HP & HE). destruct HR as (R1 & R2 & R3 & R4).
  assert (HSig : 0 <= sig) by (eapply Rle_trans; [apply Rabs_pos|exact (off_up J i ltac:(lia) ltac:(lia))]).
  assert (Htau : 0 <= tau) by (unfold ch_tau; nra).
  assert (Heps : 0 <= eps). { unfold ch_eps. apply Rmult_le_pos; lra. }
  set (m := Datatypes.S J). assert (Hm : INR m <= N) by (apply le_INR; unfold m; lia). pose proof (pos_INR m) as Hm0.
  set (lz := fun k p => if Nat.leb p k then l k p else 0).
  assert (lzl : forall k p, (p <= k)%nat -> lz k p = l k p) by (intros k p Hp; unfold lz; apply Nat.leb_le in Hp; rewrite Hp; reflexivity).
  assert (lz0 : forall k p, (k < p)%nat -> lz k p = 0) by (intros k p Hp; unfold lz; apply Nat.leb_gt in Hp; rewrite Hp; reflexivity).
  assert (D : forall k, (k < m)%nat -> 0 < l k k). { intros k Hk. destruct (Nat.eq_dec k J) as [->|Hne]; [exact HJJ|apply C2; unfold m in Hk; lia]. }
  assert (TT : forall k, (k < m)%nat -> rsum (Datatypes.S k) (fun p => l k p * l k p) <= tau). { intros k Hk. destruct (Nat.eq_dec k J) as [->|Hne]; [exact HTJ|apply C3; unfold m in Hk; lia]. }
  assert (HH : lam - INR m * eps <= a i i - rsum m (fun p => l i p * l i p)); [|nra].
  assert (ES : forall (F : R -> R -> R), (forall x, F 0 x = 0) -> forall k q, (k <= q)%nat -> (k < m)%nat -> rsum m (fun p => F (lz k p) (lz q p)) = rsum (Datatypes.S k) (fun p => F (l k p) (l q p))).
  { intros F F0 k q Hkq Hk. rewrite (rsum_trunc (Datatypes.S k) m) by (first [lia|intros p Hp; rewrite lz0 by lia; apply F0]). apply rsum_ext. intros p Hp. rewrite !lzl by lia. reflexivity. }
  apply (schur m a lz (fun k => a k i) (fun p => l i p) (a i i) gam tau eps lam); auto; try lra.
  - intros k Hk. rewrite lzl by lia. pose proof (D k Hk). lra.
  - assert (G : forall k q, (k <= q < m)%nat -> Rabs (a k q - rsum m (fun p => lz k p * lz q p)) <= gam * rsum m (fun p => Rabs (lz k p) * Rabs (lz q p)) + eps).
    { intros k q Hkq. rewrite (ES Rmult) by (first [lia|intros; ring]). rewrite (ES (fun x y => Rabs x * Rabs y)) by (first [lia|intros; rewrite Rabs_R0; ring]). apply B; unfold m in *; lia. }
    intros k q Hk Hq. destruct (Nat.le_gt_cases k q) as [Hle|Hgt]; [apply G; lia|]. rewrite sym. rewrite (rsum_ext m (fun p => lz k p * lz q p) (fun p => lz q p * lz k p)) by (intros; ring).
    rewrite (rsum_ext m (fun p => Rabs (lz k p) * Rabs (lz q p)) (fun p => Rabs (lz q p) * Rabs (lz k p))) by (intros; ring). apply G; lia.
  - intros k Hk. rewrite (rsum_trunc (Datatypes.S k) m (fun p => lz k p * l i p)) by (first [lia|intros p Hp; rewrite lz0 by lia; ring]).
    rewrite (rsum_trunc (Datatypes.S k) m (fun p => Rabs (lz k p) * Rabs (l i p))) by (first [lia|intros p Hp; rewrite lz0, Rabs_R0 by lia; ring]).
    rewrite (rsum_ext _ (fun p => lz k p * l i p) (fun p => l k p * l i p)) by (intros p Hp; rewrite lzl by lia; reflexivity).
    rewrite (rsum_ext _ (fun p => Rabs (lz k p) * Rabs (l i p)) (fun p => Rabs (l k p) * Rabs (l i p))) by (intros p Hp; rewrite lzl by lia; reflexivity).
    apply B; unfold m in *; lia.
  - intros k Hk. rewrite (ES Rmult) by (first [lia|intros; ring]). apply TT, Hk.
  - intros w. apply quad_pick. unfold m. lia.
  - assert (0 <= gam * tau) by (apply Rmult_le_pos; lra). assert (INR m * (gam * tau) <= N * (gam * tau)) by (apply Rmult_le_compat_r; lra). assert ((INR m + 1) * eps <= (N + 1) * eps) by (apply Rmult_le_compat_r; lra).
    assert (0 <= N * (gam * tau)) by (apply Rmult_le_pos; lra). assert (0 <= (N + 1) * eps) by (apply Rmult_le_pos; lra). nra.
Qed.

Lemma cols0 : cols 0.
Proof.
  destruct basics as (Hu & He & HN & Hg & Heh & Hh & Hl & HP & HE). unfold cols. repeat (split; [intros; lia|]). intros i Hi. cbn [rsum].
  pose proof (diag_low i ltac:(lia)) as D1. pose proof (diag_up i ltac:(lia)) as D2.
  assert (0 <= eps). { unfold ch_eps, ch_tau. apply Rmult_le_pos; nra. } nra.
Qed.

(** the pivot is positive *)
Lemma pivot J x s : (J < n)%nat -> cols J -> S J J = Some x -> subdot NN J x (fun k => L J k) (fun k => L J k) = Some s -> vf s = true /\ sf_finite s = true /\ lam / 2 <= val s.
Proof.
  intros HJ HC Ex Es. destruct (rest J J ltac:(lia) HC) as (x' & s' & Ex' & Vx & Es' & Vs & Fs & Bs & Er & GJ & _ & HT).
  assert (x' = x) by congruence. subst x'. assert (s' = s) by congruence. subst s'. clear Ex' Es'. split; [exact Vs|]. split; [exact Fs|].
  destruct HC as (C1 & C2 & C3 & C4 & C5). destruct basics as (Hu & He & HN & Hg & Heh & Hh & Hl & HP & HE). destruct HR as (R1 & R2 & R3 & R4).
  pose proof (C5 J ltac:(lia)) as CJ. pose proof (diag_up J HJ) as DU. unfold sa in CJ, DU. rewrite Nat.min_id, Nat.max_id, Ex in CJ, DU. cbn [oval] in CJ, DU.
  rewrite (rsum_ext J (fun k => Rabs (l J k) * Rabs (l J k)) (fun k => l J k * l J k)) in Er, HT by (intros k Hk; rewrite <- Rabs_mult; apply Rabs_pos_eq; nra).
  set (T := rsum J (fun k => l J k * l J k)) in *. set (E := val x - T) in *.
  assert (Htau : 2 * sig + 2 * (N + 1) * h = tau) by (unfold ch_tau; ring).
  assert (HSig : 0 <= sig) by lra.
  assert (Htau0 : 0 <= tau) by nra.
  assert (Heps : N * h + h <= eps). { unfold ch_eps. nra. }
  assert (Heps0 : 0 <= eps) by nra.
  assert (Hgt : 0 <= gam * tau) by (apply Rmult_le_pos; lra).
  assert (Q1 : gam * tau + eps <= lam / 8). { assert (1 * (gam * tau) <= N * (gam * tau)) by (apply Rmult_le_compat_r; lra). assert (2 * eps <= (N + 1) * eps) by (apply Rmult_le_compat_r; lra). lra. }
  assert (Q2 : N * eps <= lam / 4). { assert (0 <= N * (gam * tau)) by (apply Rmult_le_pos; lra). lra. }
  pose proof (HP J ltac:(lia)) as HPJ. assert (HIJ : INR J <= N) by (apply le_INR; lia). pose proof (pos_INR J) as HI0. pose proof (HE J ltac:(lia)) as HEJ.
  set (q := (1 + u) ^ J) in *.
  assert (Z : Rabs (E - val s) <= gam * (Rabs (val s) + sig) + N * h).
  { replace (E - val s) with (val x - val s - T) by (unfold E; ring). eapply Rle_trans; [exact Er|]. apply Rplus_le_compat.
    - pose proof (Rabs_pos (val s)). apply Rmult_le_compat; lra.
    - rewrite Rmult_assoc. apply Rmult_le_compat; try lra. nra. }
  assert (HE1 : lam - N * eps <= E <= sig) by (unfold E; lra).
  assert (Hs : Rabs (val s) <= sig + Rabs (E - val s)).
  { replace (val s) with (E - (E - val s)) at 1 by ring. eapply Rle_trans; [apply Rabs_triang|]. rewrite Rabs_Ropp, (Rabs_pos_eq E) by lra. lra. }
  set (z := Rabs (E - val s)) in *. assert (Hz0 : 0 <= z) by apply Rabs_pos.
  assert (Hz : z <= 2 * (gam * tau) + 2 * (N * h)). { assert (gam * (Rabs (val s) + sig) <= gam * (2 * sig + z)) by (apply Rmult_le_compat_l; lra). assert (gam * z <= / 2 * z) by (apply Rmult_le_compat_r; lra). assert (gam * (2 * sig) <= gam * tau) by (apply Rmult_le_compat_l; nra). lra. }
  assert (E - val s <= z) by apply Rle_abs. lra.
Qed.

Lemma step J : (J < n)%nat -> cols J -> b_column NN n S L J -> cols (Datatypes.S J).
Proof.
  intros HJ HC (s & ll & d & B1 & B2 & B3 & B4 & B5 & B6). destruct (HS J J ltac:(lia)) as (x & Ex & Vx & Fx). rewrite Ex in B1. cbn [obind] in B1.
  destruct (pivot J x s HJ HC Ex B1) as (Vs & Fs & Ps).
  destruct basics as (Hu & He & HN & Hg & Heh & Hh & Hl & HP & HE). pose proof HR as (R1 & R2 & R3 & R4).
  assert (Hs0 : 0 < val s) by lra. destruct (sqrt_fin prec emax HF s Vs Fs Hs0) as (Fsq & Hle).
  assert (El : ll = SFsqrt prec emax s) by (change (Some (SFsqrt prec emax s) = Some ll) in B3; congruence). clear B3.
  assert (Ed : d = SFdiv prec emax (sf_one prec) ll) by (change (Some (SFdiv prec emax (sf_one prec) ll) = Some d) in B4; congruence). clear B4.
  destruct (sqrt_err prec emax _ _ s Vs Fsq Hle) as (Hl0 & Hsq). pose proof (sqrt_upper prec emax _ _ s H4 Vs Fsq Hle) as Hup. rewrite <- El in Hl0, Hsq, Hup, Fsq.
  assert (Vl : vf ll = true) by (rewrite El; apply vf_sqrt; auto with typeclass_instances).
  assert (V1 : vf (sf_one prec) = true) by (apply one_format; [exact hmax|apply HF]).
  assert (Vd : vf d = true) by (rewrite Ed; apply vf_div; auto with typeclass_instances).
  assert (Fd : sf_finite d = true) by (rewrite Ed; apply (recip_fin prec emax HF s ll); auto).
  assert (Hd : Rabs (val d - / val ll) <= u * Rabs (/ val ll)).
  { rewrite Ed. rewrite (recip_val prec emax _ _ ll); auto; [|apply HF|lra|rewrite <- Ed; exact Fd].
    apply (rnd_err_normal prec emax _ (/ val ll)). rewrite Rabs_pos_eq; [exact Hup|left; apply Rinv_0_lt_compat, Hl0]. }
  set (lv := val ll) in *.
  assert (Hu2 : (1 + u) * (1 + u) <= 3 / 2). { pose proof (HP 2%nat ltac:(lia)) as H. cbn [pow] in H. lra. }
  assert (Hl2 : lam / 4 <= lv * lv). { assert (val s <= (1 + u) * (1 + u) * (lv * lv)) by (pose proof (Rle_abs (val s - lv * lv)); lra). assert (0 <= lv * lv) by nra. nra. }
  assert (Hdb : Rabs (val d) <= 1 + 16 / lam).
  { assert (Hi : 0 < / lv) by (apply Rinv_0_lt_compat, Hl0). rewrite (Rabs_pos_eq (/ lv)) in Hd by lra.
    assert (Hd1 : Rabs (val d) <= (1 + u) * / lv). { replace (val d) with ((val d - / lv) + / lv) by ring. eapply Rle_trans; [apply Rabs_triang|]. rewrite (Rabs_pos_eq (/ lv)) by lra. lra. }
    assert (Hi2 : / lv * / lv <= 4 / lam). { rewrite <- Rinv_mult. replace (4 / lam) with (/ (lam / 4)) by (field; lra). apply Rinv_le_contravar; lra. }
    assert (/ lv <= (1 + / lv * / lv) / 2). { pose proof (Rle_0_sqr (/ lv - 1)) as Q. unfold Rsqr in Q. lra. }
    assert (0 < / lam) by (apply Rinv_0_lt_compat, Hl). unfold Rdiv in *. nra. }
  assert (EJJ : l J J = lv) by (rewrite B5; reflexivity).
  assert (Htau : 2 * sig + 2 * (N + 1) * h = tau) by (unfold ch_tau; ring).
  assert (HSig : 0 <= sig). { pose proof (diag_low J HJ). pose proof (diag_up J HJ). lra. }
  assert (Htau0 : 0 <= tau) by nra.
  assert (Hhe : e <= tau) by nra.
  (* the entries below *)
  assert (OFF : forall i, (J < i < n)%nat -> exists x' s' v, S J i = Some x' /\ L i J = Some v /\ vf v = true /\ sf_finite v = true /\
     Rabs (val x' - val s' - rsum J (fun k => l J k * l i k)) <= ((1 + u) ^ J - 1) * (Rabs (val s') + rsum J (fun k => Rabs (l J k) * Rabs (l i k))) + INR J * (1 + u) ^ J * e /\
     Rabs (val v - val s' * val d) <= u * Rabs (val v) + e).
  { intros i Hi. destruct (rest J i ltac:(lia) HC) as (x' & s' & Ex' & Vx' & Es' & Vs' & Fs' & Bs' & Er' & _).
    destruct (B6 i ltac:(lia)) as (G1 & _). rewrite Ex' in G1. cbn [obind] in G1. rewrite Es' in G1. cbn [b_mul obind] in G1. assert (G2 : L i J = Some (SFmul prec emax s' d)) by exact G1. clear G1.
    assert (Fm : sf_finite (SFmul prec emax s' d) = true).
    { apply (mul_fin prec emax HF); auto. eapply Rle_lt_trans; [|exact R4]. rewrite Rabs_mult.
      assert (0 < 16 / lam) by (apply Rmult_lt_0_compat; [lra|apply Rinv_0_lt_compat, Hl]).
      assert (P1 : Rabs (val s') * Rabs (val d) <= 3 / 2 * tau * (1 + 16 / lam)) by (apply Rmult_le_compat; auto; apply Rabs_pos).
      assert (0 <= tau * (16 / lam)) by (apply Rmult_le_pos; lra). nra. }
    exists x', s', (SFmul prec emax s' d). split; [exact Ex'|]. split; [exact G2|]. split; [apply vf_mul; auto with typeclass_instances|]. split; [exact Fm|]. split; [exact Er'|].
    apply (mul_err_both prec emax _ _ s' d Vs' Vd Fm). }
  (* equations, with the raw underflow term *)
  assert (EQ : forall i, (J <= i < n)%nat -> Rabs (a J i - rsum (Datatypes.S J) (fun p => l J p * l i p)) <= gam * rsum (Datatypes.S J) (fun p => Rabs (l J p) * Rabs (l i p)) + h * (N + 2 * lv)).
  { intros i Hi. rewrite !rsum_last.
    assert (HT : 0 <= rsum J (fun k => Rabs (l J k) * Rabs (l i k))) by (apply rsum_pos; intros; apply Rmult_le_pos; apply Rabs_pos).
    assert (G : forall xv sv, Rabs (xv - sv - rsum J (fun k => l J k * l i k)) <= ((1 + u) ^ J - 1) * (Rabs sv + rsum J (fun k => Rabs (l J k) * Rabs (l i k))) + INR J * (1 + u) ^ J * e ->
       Rabs (sv - l J J * l i J) <= ((1 + u) ^ 3 - 1) * Rabs (l J J * l i J) + 2 * (e * lv) ->
       Rabs (xv - (rsum J (fun k => l J k * l i k) + l J J * l i J)) <= gam * (rsum J (fun k => Rabs (l J k) * Rabs (l i k)) + Rabs (l J J) * Rabs (l i J)) + h * (N + 2 * lv)).
    { intros xv sv G1 G2. rewrite <- (Rabs_mult (l J J)). eapply Rle_trans; [apply (combine prec emax HF J xv sv _ _ _ lv HT ltac:(lra) G1 G2)|].
      apply Rplus_le_compat.
      - apply Rmult_le_compat_r; [pose proof (Rabs_pos (l J J * l i J)); lra|]. pose proof (HP (J + 3)%nat ltac:(lia)). lra.
      - pose proof (HE J ltac:(lia)) as HEJ. pose proof (pos_INR J). assert (INR J <= N) by (apply le_INR; lia). pose proof (HP J ltac:(lia)). apply Rmult_le_compat; try lra. apply Rmult_le_pos; lra. }
    destruct (Nat.eq_dec i J) as [->|Hne].
    - destruct (rest J J ltac:(lia) HC) as (x' & s' & Ex' & _ & Es' & _ & _ & _ & Er & _). assert (x' = x) by congruence. subst x'. assert (s' = s) by congruence. subst s'.
      unfold sa. rewrite Nat.min_id, Nat.max_id, Ex. cbn [oval]. apply (G (val x) (val s)); [exact Er|]. rewrite EJJ. rewrite (Rabs_pos_eq (lv * lv)) by nra.
      eapply Rle_trans; [exact Hsq|]. assert (0 <= lv * lv) by nra. assert (((1 + u) * (1 + u) - 1) * (lv * lv) <= ((1 + u) ^ 3 - 1) * (lv * lv)) by (apply Rmult_le_compat_r; [lra|cbn; nra]). assert (0 <= 2 * (e * lv)) by nra. lra.
    - destruct (OFF i ltac:(lia)) as (x' & s' & v & Ex' & Ev & Vv & Fv & Er & Em). unfold sa. rewrite Nat.min_l, Nat.max_r, Ex' by lia. cbn [oval].
      apply (G (val x') (val s')); [exact Er|]. rewrite EJJ, Ev. cbn [oval]. apply (off_diag prec emax HF _ _ (val d)); auto. }
  assert (TJ : rsum (Datatypes.S J) (fun p => l J p * l J p) <= tau).
  { pose proof (EQ J ltac:(lia)) as Q. rewrite (rsum_ext _ (fun p => Rabs (l J p) * Rabs (l J p)) (fun p => l J p * l J p)) in Q by (intros k Hk; rewrite <- Rabs_mult; apply Rabs_pos_eq; nra).
    pose proof (diag_up J HJ) as DU. set (X := rsum (Datatypes.S J) _) in *. assert (HX : lv * lv <= X). { unfold X. rewrite rsum_last, EJJ. assert (0 <= rsum J (fun p => l J p * l J p)) by apply rsum_sq_abs. lra. }
    assert (2 * lv <= 1 + X). { pose proof (Rle_0_sqr (lv - 1)) as Z. unfold Rsqr in Z. lra. }
    assert (h * (N + 2 * lv) <= h * (N + 1 + X)) by (apply Rmult_le_compat_l; lra). assert (X - a J J <= Rabs (a J J - X)) by (rewrite Rabs_minus_sym; apply Rle_abs).
    assert (0 <= X) by nra. assert ((gam + h) * X <= / 2 * X) by (apply Rmult_le_compat_r; lra). lra. }
  assert (BB : forall k i, (k < Datatypes.S J)%nat -> (k <= i < n)%nat -> Rabs (a k i - rsum (Datatypes.S k) (fun p => l k p * l i p)) <= gam * rsum (Datatypes.S k) (fun p => Rabs (l k p) * Rabs (l i p)) + eps).
  { intros k i Hk Hi. destruct (Nat.eq_dec k J) as [->|Hne]; [|apply HC; lia]. eapply Rle_trans; [apply EQ; lia|]. apply Rplus_le_compat_l. unfold ch_eps. apply Rmult_le_compat_l; [lra|].
    assert (HX : lv * lv <= tau). { eapply Rle_trans; [|exact TJ]. rewrite rsum_last, EJJ. assert (0 <= rsum J (fun p => l J p * l J p)) by apply rsum_sq_abs. lra. }
    pose proof (Rle_0_sqr (lv - 1)) as Z. unfold Rsqr in Z. lra. }
  pose proof HC as (C1 & C2 & C3 & C4 & C5). unfold cols. split; [|split; [|split; [|split]]].
  - intros k i Hk Hi. destruct (Nat.eq_dec k J) as [->|Hne]; [|apply C1; lia]. destruct (Nat.eq_dec i J) as [->|Hne]; [exists ll; auto|].
    destruct (OFF i ltac:(lia)) as (_ & _ & v & _ & Ev & Vv & Fv & _). eauto.
  - intros k Hk. destruct (Nat.eq_dec k J) as [->|Hne]; [rewrite EJJ; split; lra|apply C2; lia].
  - intros k Hk. destruct (Nat.eq_dec k J) as [->|Hne]; [exact TJ|apply C3; lia].
  - exact BB.
  - intros i Hi. apply schur_row; auto; try lia; try (rewrite EJJ; exact Hl0).
Qed.

Lemma all_cols J : (J <= n)%nat -> (forall i, (i < J)%nat -> b_column NN n S L i) -> cols J.
Proof. induction J as [|J IH]; intros HJ H; [apply cols0|]. apply step; [lia|apply IH; [lia|intros; apply H; lia]|apply H; lia]. Qed.

Lemma not_refused : ~ b_no_factor NN n S L.
Proof.
  intros (i & s & d & Hi & Hc & Es & Hle & _).
  pose proof (all_cols i ltac:(lia) Hc) as HC. destruct (HS i i ltac:(lia)) as (x & Ex & _). rewrite Ex in Es. cbn [obind] in Es.
  destruct (pivot i x s Hi HC Ex Es) as (Vs & Fs & Ps). destruct basics as (_ & _ & _ & _ & _ & _ & Hl & _).
  destruct (sqrt_fin prec emax HF s Vs Fs ltac:(lra)) as (_ & Hle'). change (SFleb s (S754_zero false) = true) in Hle. congruence.
Qed.
Lemma has_factor : b_factor NN n S L \/ b_no_factor NN n S L -> b_factor NN n S L /\ cols n.
Proof. intros [H|H]; [split; [exact H|apply all_cols; [lia|apply H]]|exfalso; exact (not_refused H)]. Qed.

(** the reciprocals of the pivots *)
Lemma factor_recip : b_factor NN n S L -> forall i r, (i < n)%nat -> obind (L i i) (o_recip NN) = Some r -> sf_finite r = true /\ Rabs (val r - / l i i) <= u * Rabs (/ l i i).
Proof.
  intros HB i r Hi Er. pose proof (all_cols i ltac:(lia) (fun k Hk => proj1 HB k ltac:(lia))) as HC. destruct (proj1 HB i Hi) as (s & ll & d & B1 & B2 & B3 & B4 & B5 & _).
  destruct (HS i i ltac:(lia)) as (x & Ex & _). rewrite Ex in B1. cbn [obind] in B1. destruct (pivot i x s Hi HC Ex B1) as (Vs & Fs & Ps). destruct basics as (Hu & _ & _ & _ & _ & _ & Hl & _).
  assert (Hs0 : 0 < val s) by lra. destruct (sqrt_fin prec emax HF s Vs Fs Hs0) as (Fsq & Hle).
  assert (El : ll = SFsqrt prec emax s) by (change (Some (SFsqrt prec emax s) = Some ll) in B3; congruence). clear B3.
  rewrite B5 in Er |- *. cbn [obind oval] in Er |- *. assert (Ed : r = SFdiv prec emax (sf_one prec) ll) by (change (Some (SFdiv prec emax (sf_one prec) ll) = Some r) in Er; congruence). clear B4 Er.
  destruct (sqrt_err prec emax _ _ s Vs Fsq Hle) as (Hl0 & Hsq). pose proof (sqrt_upper prec emax _ _ s H4 Vs Fsq Hle) as Hup. rewrite <- El in Hl0, Hsq, Hup, Fsq.
  assert (Vl : vf ll = true) by (rewrite El; apply vf_sqrt; auto with typeclass_instances).
  assert (Fd : sf_finite r = true) by (rewrite Ed; apply (recip_fin prec emax HF s ll); auto). split; [exact Fd|].
  rewrite Ed. rewrite (recip_val prec emax _ _ ll); auto; try apply HF; try lra; try (apply one_format; [exact hmax|apply HF]); try (rewrite <- Ed; exact Fd).
  apply (rnd_err_normal prec emax _ (/ val ll)). rewrite Rabs_pos_eq; [exact Hup|left; apply Rinv_0_lt_compat, Hl0].
Qed.

(** the same for the whole rows: L is lower triangular *)
Lemma factor_rows : b_factor NN n S L -> fin_cells n L /\
  (forall i, (i < n)%nat -> 0 < l i i /\ lam / 4 <= l i i * l i i) /\
  (forall i, (i < n)%nat -> rsum n (fun k => l i k * l i k) <= tau) /\
  (forall i j, (i < n)%nat -> (j < n)%nat -> Rabs (a i j - rsum n (fun k => l i k * l j k)) <= gam * rsum n (fun k => Rabs (l i k) * Rabs (l j k)) + eps).
Proof.
  intros HB. pose proof (all_cols n ltac:(lia) (fun i Hi => proj1 HB i Hi)) as (C1 & C2 & C3 & C4 & _). destruct HB as (_ & HZ).
  assert (Z : forall i k, (i < k < n)%nat -> l i k = 0) by (intros i k Hk; rewrite (HZ i k Hk); reflexivity).
  split; [|split; [|split]].
  - intros i j Hi Hj. destruct (Nat.lt_ge_cases i j) as [Hlt|Hge]; [exists (n_zero NN); split; [apply HZ; lia|split; reflexivity]|].
    apply C1; lia.
  - exact C2.
  - intros i Hi. rewrite (rsum_trunc (Datatypes.S i) n) by (first [lia|intros p Hp; rewrite Z by lia; ring]). apply C3, Hi.
  - assert (G : forall i j, (i <= j < n)%nat -> Rabs (a i j - rsum n (fun k => l i k * l j k)) <= gam * rsum n (fun k => Rabs (l i k) * Rabs (l j k)) + eps).
    { intros i j Hij. rewrite !(rsum_trunc (Datatypes.S i) n) by (first [lia|intros p Hp; rewrite Z by lia; rewrite ?Rabs_R0; ring]). apply C4; lia. }
    intros i j Hi Hj. destruct (Nat.le_ge_cases i j); [apply G; lia|].
    rewrite sym, (rsum_ext n (fun k => l i k * l j k) (fun k => l j k * l i k)), (rsum_ext n (fun k => Rabs (l i k) * Rabs (l j k)) (fun k => Rabs (l j k) * Rabs (l i k))) by (intros; ring). apply G; lia.
Qed.
End Solve.
