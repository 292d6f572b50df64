(** * Real arithmetic behind the existence of a floating-point Cholesky factor *)
From Coq Require Import ZArith Reals Lia Lra Psatz.
From Flocq Require Import Core BinarySingleNaN.
From Verif Require Import SpecReal SpecSolve FloatErr FloatPredict FloatForward FloatRange.
Open Scope R_scope.

Lemma rsum_trunc K m f : (K <= m)%nat -> (forall p, (K <= p < m)%nat -> f p = 0) -> rsum m f = rsum K f.
Proof.
  intros H Hz. induction m as [|m IH]; [assert (K = 0)%nat by lia; subst; reflexivity|].
  destruct (Nat.eq_dec K (S m)) as [->|Hne]; [reflexivity|]. cbn [rsum]. rewrite IH by (try lia; intros; apply Hz; lia). rewrite (Hz m) by lia. lra.
Qed.
Lemma rsum_zero K f : (forall p, (p < K)%nat -> f p = 0) -> rsum K f = 0.
Proof. intros H. rewrite (rsum_trunc 0 K f); [reflexivity|lia|]. intros; apply H; lia. Qed.
Lemma rsum_one K f r : (r < K)%nat -> (forall p, (p < K)%nat -> p <> r -> f p = 0) -> rsum K f = f r.
Proof.
  intros Hr Hz. induction K as [|K IH]; [lia|]. cbn [rsum]. destruct (Nat.eq_dec r K) as [->|Hne].
  - rewrite rsum_zero; [lra|]. intros p Hp. apply Hz; lia.
  - rewrite IH by (try lia; intros; apply Hz; lia). rewrite (Hz K) by lia. lra.
Qed.
(** support {0, ..., m-1} and r *)
Lemma rsum_pick m r n f : (m <= r < n)%nat -> (forall p, (m <= p < n)%nat -> p <> r -> f p = 0) -> rsum n f = rsum m f + f r.
Proof.
  intros Hr Hz. set (g := fun p => if Nat.ltb p m then f p else 0). set (h := fun p => if Nat.ltb p m then 0 else f p).
  rewrite (rsum_ext n f (fun p => g p + h p)) by (intros p Hp; unfold g, h; destruct (Nat.ltb p m); ring). rewrite rsum_plus.
  rewrite (rsum_trunc m n g) by (first [lia|intros p Hp; unfold g; destruct (Nat.ltb_spec p m); [lia|reflexivity]]).
  rewrite (rsum_ext m g f) by (intros p Hp; unfold g; destruct (Nat.ltb_spec p m); [reflexivity|lia]). f_equal.
  rewrite (rsum_one n h r) by (first [lia|intros p Hp Hne; unfold h; destruct (Nat.ltb_spec p m); [reflexivity|apply Hz; lia]]).
  unfold h. destruct (Nat.ltb_spec r m); [lia|reflexivity].
Qed.

Lemma tri_solve m (l : nat -> nat -> R) (b : nat -> R) : (forall k, (k < m)%nat -> l k k <> 0) -> (forall k p, (k < p)%nat -> l k p = 0) ->
  exists w, forall p, (p < m)%nat -> rsum m (fun k => l k p * w k) = b p.
Proof.
  revert b. induction m as [|m IH]; intros b Hd Hl; [exists (fun _ => 0); intros; lia|].
  destruct (IH (fun p => b p - l m p * (b m / l m m))) as (w & Hw); [intros; apply Hd; lia|exact Hl|].
  exists (fun k => if Nat.eqb k m then b m / l m m else w k). intros p Hp. cbn [rsum]. rewrite Nat.eqb_refl.
  rewrite (rsum_ext m _ (fun k => l k p * w k)) by (intros k Hk; destruct (Nat.eqb_spec k m); [lia|reflexivity]).
  destruct (Nat.eq_dec p m) as [->|Hne].
  - rewrite rsum_zero by (intros k Hk; rewrite Hl by lia; ring). field. apply Hd. lia.
  - rewrite Hw by lia. ring.
Qed.

Lemma rsum_sq_abs m f : 0 <= rsum m (fun k => f k * f k). Proof. apply rsum_pos. intros. nra. Qed.
Lemma cs_mean m f g : rsum m (fun p => Rabs (f p) * Rabs (g p)) <= (rsum m (fun p => f p * f p) + rsum m (fun p => g p * g p)) / 2.
Proof.
  induction m as [|m IH]; cbn [rsum]; [lra|]. assert (Rabs (f m) * Rabs (g m) <= (f m * f m + g m * g m) / 2).
  { pose proof (Rsqr_abs (f m)) as E1. pose proof (Rsqr_abs (g m)) as E2. pose proof (Rle_0_sqr (Rabs (f m) - Rabs (g m))) as E3. unfold Rsqr in *. rewrite E1, E2. lra. }
  lra.
Qed.
(** (sum |w|)^2 <= m sum w^2 *)
Lemma sum_sq m w : rsum m (fun k => Rabs (w k)) * rsum m (fun k => Rabs (w k)) <= INR m * rsum m (fun k => w k * w k).
Proof.
  induction m as [|m IH]; [cbn; lra|]. rewrite S_INR. cbn [rsum]. set (A := rsum m (fun k => Rabs (w k))) in *. set (B := rsum m (fun k => w k * w k)) in *.
  pose proof (Rsqr_abs (w m)) as E. unfold Rsqr in E. rewrite E. clear E. pose proof (Rabs_pos (w m)) as Hw. set (x := Rabs (w m)) in *.
  assert (HA : 0 <= A) by (apply rsum_pos; intros; apply Rabs_pos). assert (HB : 0 <= B) by (apply rsum_sq_abs). pose proof (pos_INR m) as Hm.
  destruct (Nat.eq_dec m 0) as [->|Hne]; [cbn in *; unfold A, B; nra|].
  assert (H1 : 0 < INR m) by (apply lt_0_INR; lia).
  assert (2 * (A * x) <= B + INR m * (x * x)).
  { pose proof (Rle_0_sqr (A - INR m * x)) as E3. unfold Rsqr in E3. apply Rmult_le_reg_l with (INR m); [exact H1|]. lra. }
  nra.
Qed.
Lemma sum_lin m w : rsum m (fun k => Rabs (w k)) <= (INR m + rsum m (fun k => w k * w k)) / 2.
Proof.
  induction m as [|m IH]; [cbn; lra|]. rewrite S_INR. cbn [rsum]. pose proof (Rsqr_abs (w m)) as E. unfold Rsqr in E. rewrite E. set (x := Rabs (w m)) in *. pose proof (Rle_0_sqr (x - 1)) as E3. unfold Rsqr in E3. lra.
Qed.
(** sums of sums *)
Lemma dsum_prod m (w : nat -> R) x : rsum m (fun k => rsum m (fun q => Rabs (w k) * Rabs (w q) * x)) = x * (rsum m (fun k => Rabs (w k)) * rsum m (fun k => Rabs (w k))).
Proof.
  rewrite (rsum_ext m _ (fun k => Rabs (w k) * (rsum m (fun q => Rabs (w q)) * x))).
  - rewrite <- rsum_mult_r. ring.
  - intros k Hk. rewrite rsum_mult_r, <- rsum_scal. apply rsum_ext. intros. ring.
Qed.

Lemma schur m (a l : nat -> nat -> R) (ar b : nat -> R) (arr gam tau eps lam : R) :
  (forall k, (k < m)%nat -> l k k <> 0) -> (forall k p, (k < p)%nat -> l k p = 0) -> 0 <= gam -> 0 <= eps ->
  (forall k q, (k < m)%nat -> (q < m)%nat -> Rabs (a k q - rsum m (fun p => l k p * l q p)) <= gam * rsum m (fun p => Rabs (l k p) * Rabs (l q p)) + eps) ->
  (forall k, (k < m)%nat -> Rabs (ar k - rsum m (fun p => l k p * b p)) <= gam * rsum m (fun p => Rabs (l k p) * Rabs (b p)) + eps) ->
  (forall k, (k < m)%nat -> rsum m (fun p => l k p * l k p) <= tau) ->
  (forall w, lam * (rsum m (fun k => w k * w k) + 1) <= rsum m (fun k => rsum m (fun q => a k q * w k * w q)) - 2 * rsum m (fun k => ar k * w k) + arr) ->
  3 * INR m * gam * tau + (INR m + 1) * eps <= lam -> lam - INR m * eps <= arr - rsum m (fun p => b p * b p).
Proof.
  intros Hd Hl Hg He Ha Har Ht HQ HL. destruct (tri_solve m l b Hd Hl) as (w & Hw). specialize (HQ w).
  set (B := rsum m (fun p => b p * b p)). set (W := rsum m (fun k => w k * w k)) in *. assert (HW : 0 <= W) by apply rsum_sq_abs.
  assert (Hll : forall k q, (k < m)%nat -> (q < m)%nat -> 0 <= rsum m (fun p => Rabs (l k p) * Rabs (l q p)) <= tau).
  { intros k q Hk Hq. split; [apply rsum_pos; intros; apply Rmult_le_pos; apply Rabs_pos|]. eapply Rle_trans; [apply cs_mean|]. pose proof (Ht k Hk). pose proof (Ht q Hq). lra. }
  (* the exact products *)
  assert (E1 : rsum m (fun k => rsum m (fun q => rsum m (fun p => l k p * l q p) * w k * w q)) = B).
  { transitivity (rsum m (fun p => rsum m (fun k => l k p * w k) * rsum m (fun q => l q p * w q))).
    - transitivity (rsum m (fun k => rsum m (fun p => (l k p * w k) * rsum m (fun q => l q p * w q)))).
      + apply rsum_ext. intros k Hk. transitivity (rsum m (fun q => rsum m (fun p => l k p * w k * (l q p * w q)))).
        * apply rsum_ext. intros q Hq. rewrite Rmult_assoc, rsum_mult_r. apply rsum_ext. intros. ring.
        * rewrite rsum_swap. apply rsum_ext. intros p Hp. rewrite <- rsum_scal. reflexivity.
      + rewrite rsum_swap. apply rsum_ext. intros p Hp. rewrite rsum_mult_r. reflexivity.
    - apply rsum_ext. intros p Hp. rewrite Hw by exact Hp. reflexivity. }
  assert (E2 : rsum m (fun k => rsum m (fun p => l k p * b p) * w k) = B).
  { transitivity (rsum m (fun p => rsum m (fun k => l k p * w k) * b p)).
    - rewrite (rsum_ext m _ (fun k => rsum m (fun p => l k p * w k * b p))) by (intros k Hk; rewrite rsum_mult_r; apply rsum_ext; intros; ring).
      rewrite rsum_swap. apply rsum_ext. intros p Hp. rewrite rsum_mult_r. reflexivity.
    - apply rsum_ext. intros p Hp. rewrite Hw by exact Hp. reflexivity. }
  pose proof (sum_sq m w) as HS. fold W in HS. pose proof (sum_lin m w) as HN. fold W in HN. set (A := rsum m (fun k => Rabs (w k))) in *.
  (* errors of the first form *)
  assert (D1 : Rabs (rsum m (fun k => rsum m (fun q => a k q * w k * w q)) - B) <= (gam * tau + eps) * (A * A)).
  { rewrite <- E1. rewrite rsum_minus. eapply Rle_trans; [apply rsum_abs|]. unfold A. rewrite <- (dsum_prod m w (gam * tau + eps)). apply rsum_le. intros k Hk.
    rewrite rsum_minus. eapply Rle_trans; [apply rsum_abs|]. apply rsum_le. intros q Hq.
    replace (_ - _) with (w k * w q * (a k q - rsum m (fun p => l k p * l q p))) by ring. rewrite Rabs_mult, Rabs_mult.
    apply Rmult_le_compat_l; [apply Rmult_le_pos; apply Rabs_pos|]. eapply Rle_trans; [apply Ha; auto|]. pose proof (Hll k q Hk Hq). nra. }
  assert (HB1 : forall k, (k < m)%nat -> Rabs (w k) * rsum m (fun p => Rabs (l k p) * Rabs (b p)) <= rsum m (fun q => Rabs (w k) * Rabs (w q) * tau)).
  { intros k Hk. apply Rle_trans with (Rabs (w k) * rsum m (fun p => rsum m (fun q => Rabs (l k p) * Rabs (l q p) * Rabs (w q)))).
    - apply Rmult_le_compat_l; [apply Rabs_pos|]. apply rsum_le. intros p Hp. rewrite <- (Hw p Hp).
      apply Rle_trans with (Rabs (l k p) * rsum m (fun q => Rabs (l q p) * Rabs (w q))).
      + apply Rmult_le_compat_l; [apply Rabs_pos|]. eapply Rle_trans; [apply rsum_abs|]. right. apply rsum_ext. intros. apply Rabs_mult.
      + right. rewrite <- rsum_scal. apply rsum_ext. intros. ring.
    - rewrite rsum_swap, <- rsum_scal. apply rsum_le. intros q Hq. rewrite Rmult_assoc. apply Rmult_le_compat_l; [apply Rabs_pos|].
      rewrite <- rsum_mult_r. rewrite (Rmult_comm (Rabs (w q))). apply Rmult_le_compat_r; [apply Rabs_pos|]. apply Hll; auto. }
  assert (D2 : Rabs (rsum m (fun k => ar k * w k) - B) <= gam * tau * (A * A) + eps * A).
  { rewrite <- E2. rewrite rsum_minus. eapply Rle_trans; [apply rsum_abs|].
    apply Rle_trans with (rsum m (fun k => gam * rsum m (fun q => Rabs (w k) * Rabs (w q) * tau) + eps * Rabs (w k))).
    - apply rsum_le. intros k Hk. replace (_ - _) with (w k * (ar k - rsum m (fun p => l k p * b p))) by ring. rewrite Rabs_mult.
      eapply Rle_trans; [apply Rmult_le_compat_l; [apply Rabs_pos|apply Har; auto]|]. pose proof (HB1 k Hk) as H1.
      rewrite Rmult_plus_distr_l. apply Rplus_le_compat; [|right; ring]. replace (Rabs (w k) * (gam * rsum m (fun p => Rabs (l k p) * Rabs (b p)))) with (gam * (Rabs (w k) * rsum m (fun p => Rabs (l k p) * Rabs (b p)))) by ring.
      apply Rmult_le_compat_l; auto.
    - rewrite rsum_plus, !rsum_scal, dsum_prod. fold A. right. ring. }
  set (Qf := rsum m (fun k => rsum m (fun q => a k q * w k * w q))) in *. set (F := rsum m (fun k => ar k * w k)) in *.
  apply Rabs_le_inv in D1. apply Rabs_le_inv in D2. clear E1 E2 HB1 Ha Har Hw.
  assert (Htau : m = 0%nat \/ 0 <= tau). { destruct m as [|m']; [left; reflexivity|right]. eapply Rle_trans; [|apply (Ht 0%nat); lia]. apply rsum_sq_abs. }
  destruct Htau as [->|Htau]; [cbn in *; unfold W, A in *; cbn in *; lra|].
  assert (HA : 0 <= A * A) by nra. pose proof (pos_INR m) as Hm. assert (Hgt : 0 <= gam * tau) by (apply Rmult_le_pos; auto).
  assert (C1 : (3 * (gam * tau) + eps) * (A * A) <= (3 * (gam * tau) + eps) * (INR m * W)) by (apply Rmult_le_compat_l; lra).
  assert (C2 : eps * A <= eps * ((INR m + W) / 2)) by (apply Rmult_le_compat_l; lra).
  assert (C3 : (3 * INR m * gam * tau + (INR m + 1) * eps) * W <= lam * W) by (apply Rmult_le_compat_r; lra).
  nra.
Qed.
