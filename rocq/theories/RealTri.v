(** * Triangular systems of real numbers *)
From Coq Require Import ZArith Reals Lia Lra Psatz.
From Flocq Require Import Core BinarySingleNaN.
From Verif Require Import SpecReal SpecSolve FloatErr FloatPredict FloatForward FloatRange RealSchur.
Open Scope R_scope.

(** Cauchy-Schwarz *)
Lemma cs_step (s f g : R) (a b : R) : 0 <= a -> 0 <= b -> s * s <= a * b -> (s + f * g) * (s + f * g) <= (a + f * f) * (b + g * g).
Proof.
  intros Ha Hb Hs. assert (2 * (s * (f * g)) <= a * (g * g) + (f * f) * b); [|nra].
  destruct (Rle_or_lt 0 (s * (f * g))) as [Hp|Hn].
  - assert (K : (2 * (s * (f * g))) * (2 * (s * (f * g))) <= (a * (g * g) + f * f * b) * (a * (g * g) + f * f * b)).
    { assert (s * s * ((f * g) * (f * g)) <= a * b * ((f * g) * (f * g))) by (apply Rmult_le_compat_r; nra).
      pose proof (Rle_0_sqr (a * (g * g) - f * f * b)) as Q. unfold Rsqr in Q. nra. }
    apply Rsqr_incr_0; [exact K|lra|]. assert (0 <= g * g) by nra. assert (0 <= f * f) by nra. nra.
  - assert (0 <= g * g) by nra. assert (0 <= f * f) by nra. nra.
Qed.
Lemma cs m f g : rsum m (fun k => f k * g k) * rsum m (fun k => f k * g k) <= rsum m (fun k => f k * f k) * rsum m (fun k => g k * g k).
Proof. induction m as [|m IH]; [cbn; lra|]. cbn [rsum]. apply cs_step; try apply rsum_sq_abs. exact IH. Qed.
Lemma cs_abs m f g : rsum m (fun k => Rabs (f k) * Rabs (g k)) * rsum m (fun k => Rabs (f k) * Rabs (g k)) <= rsum m (fun k => f k * f k) * rsum m (fun k => g k * g k).
Proof.
  pose proof (cs m (fun k => Rabs (f k)) (fun k => Rabs (g k))) as H. cbv beta in H.
  rewrite (rsum_ext m (fun k => Rabs (f k) * Rabs (f k)) (fun k => f k * f k)) in H by (intros k _; rewrite <- Rabs_mult; apply Rabs_pos_eq; nra).
  rewrite (rsum_ext m (fun k => Rabs (g k) * Rabs (g k)) (fun k => g k * g k)) in H by (intros k _; rewrite <- Rabs_mult; apply Rabs_pos_eq; nra). exact H.
Qed.

(** L w = b, solved from the top; zeros on top of b lead to zeros on top of w *)
Lemma fwd_solve m (l : nat -> nat -> R) (b : nat -> R) : (forall k, (k < m)%nat -> l k k <> 0) -> (forall k p, (k < p)%nat -> l k p = 0) ->
  exists w, (forall p, (p < m)%nat -> rsum m (fun k => l p k * w k) = b p) /\
    (forall q, (forall p, (p < q)%nat -> (p < m)%nat -> b p = 0) -> forall p, (p < q)%nat -> (p < m)%nat -> w p = 0).
Proof.
  intros Hd Hl. induction m as [|m IH]; [exists (fun _ => 0); split; intros; [lia|reflexivity]|].
  destruct IH as (w & Hw & Hz); [intros; apply Hd; lia|].
  exists (fun k => if Nat.eqb k m then (b m - rsum m (fun k => l m k * w k)) / l m m else w k). 
  assert (E : forall p, rsum m (fun k => l p k * (if Nat.eqb k m then (b m - rsum m (fun k => l m k * w k)) / l m m else w k)) = rsum m (fun k => l p k * w k)).
  { intros p. apply rsum_ext. intros k Hk. destruct (Nat.eqb_spec k m); [lia|reflexivity]. }
  split.
  - intros p Hp. cbn [rsum]. rewrite Nat.eqb_refl, E. destruct (Nat.eq_dec p m) as [->|Hne]; [field; apply Hd; lia|].
    rewrite (Hl p m) by lia. rewrite Hw by lia. ring.
  - intros q Hq p Hp Hpm. destruct (Nat.eqb_spec p m) as [->|Hne].
    + rewrite Hq by lia. rewrite rsum_zero; [field; apply Hd; lia|]. intros k Hk. rewrite (Hz q) by (first [lia|intros; apply Hq; lia]). ring.
    + apply (Hz q); [intros; apply Hq; lia|lia|lia].
Qed.

(** what |L' v|^2 >= c |v|^2 for all v says about |L y|^2 on leading blocks ... *)
Section Tri.
Variables (n : nat) (l : nat -> nat -> R) (c : R).
Hypothesis Hd : forall k, (k < n)%nat -> l k k <> 0.
Hypothesis Hl : forall k p, (k < p)%nat -> l k p = 0.
Hypothesis Hc : 0 < c.
Hypothesis HT : forall v, c * rsum n (fun k => v k * v k) <= rsum n (fun p => rsum n (fun k => l k p * v k) * rsum n (fun k => l k p * v k)).

Lemma sq_cancel a s t : 0 <= a -> 0 <= s -> c * t <= a -> a * a <= s * t -> c * a <= s.
Proof.
  intros Ha Hs H1 H2. destruct (Rle_lt_or_eq_dec 0 a Ha) as [Hp| <-]; [|lra].
  assert (c * (a * a) <= s * a). { apply Rle_trans with (c * (s * t)); [apply Rmult_le_compat_l; lra|]. replace (c * (s * t)) with (s * (c * t)) by ring. apply Rmult_le_compat_l; lra. }
  apply Rmult_le_reg_r with a; lra.
Qed.
Lemma low_block b y : (b <= n)%nat -> c * rsum b (fun k => y k * y k) <= rsum b (fun i => rsum b (fun k => l i k * y k) * rsum b (fun k => l i k * y k)).
Proof.
  intros Hb. destruct (tri_solve b l y) as (w & Hw); [intros; apply Hd; lia|exact Hl|].
  set (v := fun k => if Nat.ltb k b then w k else 0).
  assert (Ev : forall p, rsum n (fun k => l k p * v k) = rsum b (fun k => l k p * w k)).
  { intros p. rewrite (rsum_trunc b n) by (first [lia|intros k Hk; unfold v; destruct (Nat.ltb_spec k b); [lia|ring]]). apply rsum_ext. intros k Hk. unfold v. destruct (Nat.ltb_spec k b); [reflexivity|lia]. }
  pose proof (HT v) as H. rewrite (rsum_trunc b n (fun k => v k * v k)) in H by (first [lia|intros k Hk; unfold v; destruct (Nat.ltb_spec k b); [lia|ring]]).
  rewrite (rsum_ext b (fun k => v k * v k) (fun k => w k * w k)) in H by (intros k Hk; unfold v; destruct (Nat.ltb_spec k b); [reflexivity|lia]).
  rewrite (rsum_ext n _ (fun p => rsum b (fun k => l k p * w k) * rsum b (fun k => l k p * w k))) in H by (intros p Hp; rewrite Ev; reflexivity).
  rewrite (rsum_trunc b n) in H by (first [lia|intros p Hp; rewrite rsum_zero; [ring|intros k Hk; rewrite Hl by lia; ring]]).
  rewrite (rsum_ext b (fun p => rsum b (fun k => l k p * w k) * rsum b (fun k => l k p * w k)) (fun k => y k * y k)) in H by (intros p Hp; rewrite Hw by exact Hp; reflexivity).
  apply sq_cancel with (t := rsum b (fun k => w k * w k)); [apply rsum_sq_abs|apply rsum_sq_abs|exact H|].
  assert (E : rsum b (fun k => y k * y k) = rsum b (fun k => rsum b (fun p => l k p * y p) * w k)).
  { rewrite (rsum_ext b _ (fun p => rsum b (fun k => l k p * y p * w k))).
    - rewrite rsum_swap. apply rsum_ext. intros k Hk. rewrite rsum_mult_r. reflexivity.
    - intros p Hp. rewrite <- (Hw p Hp) at 2. rewrite <- rsum_scal. apply rsum_ext. intros. ring. }
  rewrite E. apply cs.
Qed.
(** ... and about |L' x|^2 on trailing blocks: x is zero before q *)
Lemma up_block q x : (q <= n)%nat -> (forall k, (k < q)%nat -> x k = 0) ->
  c * rsum n (fun k => x k * x k) <= rsum n (fun p => if Nat.ltb p q then 0 else rsum n (fun k => l k p * x k) * rsum n (fun k => l k p * x k)).
Proof.
  intros Hq Hx. destruct (fwd_solve n l x Hd Hl) as (w & Hw & Hz). specialize (Hz q (fun p Hp _ => Hx p Hp)).
  pose proof (low_block n w (Nat.le_refl n)) as H. rewrite (rsum_ext n (fun p => rsum n (fun k => l p k * w k) * rsum n (fun k => l p k * w k)) (fun k => x k * x k)) in H by (intros p Hp; rewrite Hw by exact Hp; reflexivity).
  set (z := fun p => if Nat.ltb p q then 0 else rsum n (fun k => l k p * x k)).
  rewrite (rsum_ext n (fun p => if Nat.ltb p q then 0 else _) (fun p => z p * z p)) by (intros p Hp; unfold z; destruct (Nat.ltb p q); ring).
  apply sq_cancel with (t := rsum n (fun k => w k * w k)); [apply rsum_sq_abs|apply rsum_sq_abs|exact H|].
  assert (E : rsum n (fun k => x k * x k) = rsum n (fun p => z p * w p)).
  { rewrite (rsum_ext n _ (fun k => rsum n (fun p => l k p * x k * w p))).
    - rewrite rsum_swap. apply rsum_ext. intros p Hp. unfold z. destruct (Nat.ltb_spec p q) as [Hlt|Hge].
      + rewrite rsum_zero by (intros k Hk; rewrite (Hz p Hlt Hp); ring). ring.
      + rewrite rsum_mult_r. reflexivity.
    - intros k Hk. rewrite <- (Hw k Hk) at 2. rewrite <- rsum_scal. apply rsum_ext. intros. ring. }
  rewrite E. apply cs.
Qed.
End Tri.

(** residuals: |r_i| <= g sum_k |l_ik| |y_k| + e for every row i, rows of squares adding up to at most t each *)
Lemma residual_sq m n (r : nat -> R) (l : nat -> nat -> R) (y : nat -> R) g e t : 0 <= g -> 0 <= e ->
  (forall i, (i < m)%nat -> Rabs (r i) <= g * rsum n (fun k => Rabs (l i k) * Rabs (y k)) + e) ->
  rsum m (fun i => rsum n (fun k => l i k * l i k)) <= t ->
  rsum m (fun i => r i * r i) <= 2 * (g * g) * t * rsum n (fun k => y k * y k) + 2 * INR m * (e * e).
Proof.
  intros Hg He H Ht. apply Rle_trans with (rsum m (fun i => 2 * (g * g) * rsum n (fun k => y k * y k) * rsum n (fun k => l i k * l i k) + 2 * (e * e))).
  - apply rsum_le. intros i Hi. specialize (H i Hi). pose proof (cs_abs n (l i) y) as C. 
    assert (HA : 0 <= rsum n (fun k => Rabs (l i k) * Rabs (y k))) by (apply rsum_pos; intros; apply Rmult_le_pos; apply Rabs_pos).
    set (A := rsum n (fun k => Rabs (l i k) * Rabs (y k))) in *. pose proof (Rabs_pos (r i)) as Hr.
    assert (E : r i * r i = Rabs (r i) * Rabs (r i)) by (rewrite <- Rabs_mult; symmetry; apply Rabs_pos_eq; nra). rewrite E.
    assert (Rabs (r i) * Rabs (r i) <= (g * A + e) * (g * A + e)) by (apply Rmult_le_compat; lra).
    assert ((g * A + e) * (g * A + e) <= 2 * (g * g) * (A * A) + 2 * (e * e)) by (pose proof (Rle_0_sqr (g * A - e)) as Q; unfold Rsqr in Q; nra).
    assert (2 * (g * g) * (A * A) <= 2 * (g * g) * (rsum n (fun k => y k * y k) * rsum n (fun k => l i k * l i k))) by (apply Rmult_le_compat_l; nra). lra.
  - rewrite rsum_plus, rsum_const, rsum_scal. apply Rplus_le_compat; [|right; ring].
    rewrite (Rmult_comm (2 * (g * g) * t)). replace (rsum n (fun k => y k * y k) * (2 * (g * g) * t)) with (2 * (g * g) * rsum n (fun k => y k * y k) * t) by ring.
    apply Rmult_le_compat_l; [|exact Ht]. pose proof (rsum_sq_abs n y). nra.
Qed.
Lemma sum_two_sq m a b : rsum m (fun i => (a i + b i) * (a i + b i)) <= 2 * (rsum m (fun i => a i * a i) + rsum m (fun i => b i * b i)).
Proof. rewrite <- rsum_plus, <- rsum_scal. apply rsum_le. intros i _. pose proof (Rle_0_sqr (a i - b i)) as Q. unfold Rsqr in Q. lra. Qed.
Lemma one_sq m f i : (i < m)%nat -> f i * f i <= rsum m (fun k => f k * f k).
Proof. intros Hi. induction m as [|m IH]; [lia|]. cbn [rsum]. destruct (Nat.eq_dec i m) as [->|Hne]; [pose proof (rsum_sq_abs m f); lra|]. specialize (IH ltac:(lia)). nra. Qed.
