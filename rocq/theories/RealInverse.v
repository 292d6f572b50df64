(** * Real matrices without small eigenvalues are invertible, and the exact correction is symmetric *)
From Coq Require Import ZArith Reals Lia Lra Psatz.
From Verif Require Import Prelude SpecReal SpecRange SpecSolve SpecCorrect FloatErr FloatPredict FloatForward RealSchur RealTri FloatInv.
Open Scope R_scope.

Lemma rsum_0 K : rsum K (fun _ => 0) = 0. Proof. induction K as [|K IH]; cbn [rsum]; [reflexivity|rewrite IH; ring]. Qed.

Lemma inverse_exists n : forall (a : nat -> nat -> R) lam, 0 < lam -> eig_above n a lam -> exists W, inverse_of n a W.
Proof.
  induction n as [|n IH]; intros a lam Hl Ea; [exists (fun _ _ => 0); intros i j Hi; lia|].
  destruct (IH a lam Hl) as (V & HV).
  { intros v. specialize (Ea (fun i => if Nat.ltb i n then v i else 0)). unfold quad in *. cbn [rsum] in Ea. rewrite Nat.ltb_irrefl in Ea.
    rewrite (rsum_ext n _ (fun i => v i * v i)) in Ea by (intros k Hk; apply Nat.ltb_lt in Hk; rewrite Hk; reflexivity).
    rewrite (rsum_ext n (fun i => rsum n _ + _) (fun i => rsum n (fun j => a i j * v i * v j))) in Ea.
    2:{ intros i Hi. apply Nat.ltb_lt in Hi. rewrite Hi, Rmult_0_r, Rplus_0_r. apply rsum_ext. intros j Hj. apply Nat.ltb_lt in Hj. rewrite Hj. reflexivity. }
    rewrite (rsum_ext n (fun j => a n j * 0 * _) (fun _ => 0)) in Ea by (intros; ring). rewrite rsum_0 in Ea. lra. }
  set (r := fun j => rsum n (fun k => a n k * V k j)). set (vc := fun i => rsum n (fun k => V i k * a k n)). set (s := a n n - rsum n (fun k => r k * a k n)).
  assert (ER : rsum n (fun k => a n k * vc k) = rsum n (fun k => r k * a k n)).
  { unfold vc, r. rewrite (rsum_ext n _ (fun k => rsum n (fun l => a n k * V k l * a l n))) by (intros; rewrite <- rsum_scal; apply rsum_ext; intros; ring). rewrite rsum_swap.
    apply rsum_ext. intros l Hl'. rewrite rsum_mult_r. reflexivity. }
  assert (BV : forall i, (i < n)%nat -> rsum n (fun k => a i k * vc k) = a i n).
  { intros i Hi. unfold vc. rewrite (rsum_ext n _ (fun k => rsum n (fun l => a i k * V k l * a l n))) by (intros; rewrite <- rsum_scal; apply rsum_ext; intros; ring). rewrite rsum_swap.
    rewrite (rsum_ext n _ (fun l => if Nat.eqb i l then a l n else 0)). 
    2:{ intros l Hl'. rewrite <- rsum_mult_r, (HV i l Hi Hl'). destruct (Nat.eqb i l); ring. }
    rewrite (rsum_one n _ i Hi); [rewrite Nat.eqb_refl; reflexivity|]. intros l Hl' Hne. destruct (Nat.eqb_spec i l); [congruence|reflexivity]. }
  assert (Ps : 0 < s).
  { specialize (Ea (fun i => if Nat.ltb i n then - vc i else 1)). unfold quad in Ea. cbn [rsum] in Ea. rewrite Nat.ltb_irrefl in Ea.
    rewrite (rsum_ext n (fun i => (if Nat.ltb i n then - vc i else 1) * _) (fun i => vc i * vc i)) in Ea by (intros k Hk; apply Nat.ltb_lt in Hk; rewrite Hk; ring).
    rewrite (rsum_ext n (fun i => rsum n _ + _) (fun _ => 0)) in Ea.
    2:{ intros i Hi. pose proof Hi as Hi'. apply Nat.ltb_lt in Hi'. rewrite Hi'. rewrite (rsum_ext n _ (fun j => vc i * (a i j * vc j))) by (intros j Hj; apply Nat.ltb_lt in Hj; rewrite Hj; ring).
        rewrite rsum_scal, (BV i Hi). ring. }
    rewrite (rsum_ext n (fun j => a n j * 1 * _) (fun j => -1 * (a n j * vc j))) in Ea by (intros j Hj; apply Nat.ltb_lt in Hj; rewrite Hj; ring).
    rewrite rsum_0, rsum_scal, ER in Ea. pose proof (rsum_sq_abs n vc) as Q. unfold s. nra. }
  exists (fun i j => if Nat.ltb i n then (if Nat.ltb j n then V i j + vc i * r j / s else - vc i / s) else (if Nat.ltb j n then - r j / s else 1 / s)).
  intros i j Hi Hj. cbn [rsum]. rewrite Nat.ltb_irrefl.
  destruct (Nat.eq_dec j n) as [->|Hjn].
  - rewrite Nat.ltb_irrefl. rewrite (rsum_ext n _ (fun k => - / s * (a i k * vc k))) by (intros k Hk; apply Nat.ltb_lt in Hk; rewrite Hk; unfold Rdiv; ring). rewrite rsum_scal.
    destruct (Nat.eq_dec i n) as [->|Hin].
    + rewrite Nat.eqb_refl, ER. replace (- / s * rsum n (fun k => r k * a k n) + a n n * (1 / s)) with ((a n n - rsum n (fun k => r k * a k n)) / s) by (unfold Rdiv; ring). fold s. field. lra.
    + rewrite BV by lia. apply Nat.eqb_neq in Hin. rewrite Hin. unfold Rdiv. ring.
  - assert (Hj' : (j < n)%nat) by lia. pose proof Hj' as Hj2. apply Nat.ltb_lt in Hj2. rewrite Hj2.
    rewrite (rsum_ext n _ (fun k => a i k * V k j + r j / s * (a i k * vc k))) by (intros k Hk; apply Nat.ltb_lt in Hk; rewrite Hk; unfold Rdiv; ring). rewrite rsum_plus, rsum_scal.
    destruct (Nat.eq_dec i n) as [->|Hin].
    + rewrite ER. fold (r j). destruct (Nat.eqb_spec n j); [lia|].
      replace (r j + r j / s * rsum n (fun k => r k * a k n) + a n n * (- r j / s)) with (r j * (1 - (a n n - rsum n (fun k => r k * a k n)) / s)) by (unfold Rdiv; ring). fold s. field. lra.
    + rewrite BV, HV by lia. unfold Rdiv. ring.
Qed.

(** a one-sided inverse of a symmetric matrix is symmetric *)
Lemma inverse_sym n (a W : nat -> nat -> R) : sym_on n a -> inverse_of n a W -> sym_on n W.
Proof.
  intros Sa IW i j Hi Hj.
  assert (Q : forall i j, (i < n)%nat -> (j < n)%nat -> rsum n (fun k => W k i * rsum n (fun l => a k l * W l j)) = W j i).
  { intros p q Hp Hq. rewrite (rsum_ext n _ (fun k => if Nat.eqb k q then W k p else 0)) by (intros k Hk; rewrite IW by assumption; destruct (Nat.eqb k q); ring).
    rewrite (rsum_one n _ q Hq); [rewrite Nat.eqb_refl; reflexivity|]. intros k Hk Hne. destruct (Nat.eqb_spec k q); [congruence|reflexivity]. }
  rewrite <- (Q j i Hj Hi), <- (Q i j Hi Hj).
  rewrite (rsum_ext n _ (fun k => rsum n (fun l => W k j * (a k l * W l i)))) by (intros; rewrite rsum_scal; reflexivity).
  rewrite (rsum_ext n (fun k => W k i * _) (fun k => rsum n (fun l => W k i * (a k l * W l j)))) by (intros; rewrite rsum_scal; reflexivity).
  rewrite rsum_swap. apply rsum_ext. intros l Hl. apply rsum_ext. intros k Hk. rewrite (Sa k l Hk Hl). ring.
Qed.
Lemma inn_cov_sym n m H P Rm : sym_on n P -> sym_on m Rm -> sym_on m (inn_cov n H P Rm).
Proof.
  intros SP SR i j Hi Hj. unfold inn_cov. rewrite (SR i j Hi Hj). f_equal.
  rewrite (rsum_ext n _ (fun k => rsum n (fun l => H i l * P l k * H j k))) by (intros; rewrite rsum_mult_r; reflexivity). rewrite rsum_swap.
  apply rsum_ext. intros l Hl. rewrite rsum_mult_r. apply rsum_ext. intros k Hk. rewrite (SP l k Hl Hk). ring.
Qed.
Lemma upper_sym_on m a : sym_on m a -> forall i j, (i < m)%nat -> (j < m)%nat -> upper_of a i j = a i j.
Proof. intros Sa i j Hi Hj. unfold upper_of. destruct (Nat.le_ge_cases i j) as [L|L]; [rewrite Nat.min_l, Nat.max_r by lia; reflexivity|rewrite Nat.min_r, Nat.max_l by lia; apply Sa; assumption]. Qed.
Lemma corr_sym n m H P W : sym_on n P -> sym_on m W -> sym_on n (corr_P n m (gain_of n m H P W) H P).
Proof.
  intros SP SW i j Hi Hj. unfold corr_P. rewrite (SP i j Hi Hj). f_equal. unfold gain_of.
  assert (E : forall i q, (i < n)%nat -> (q < m)%nat -> rsum n (fun l => H q l * P l i) = rsum n (fun l => P i l * H q l)).
  { intros k q Hk Hq. apply rsum_ext. intros l Hl. rewrite (SP l k Hl Hk). ring. }
  rewrite (rsum_ext m _ (fun q => rsum m (fun p => rsum n (fun l => P i l * H p l) * W p q * rsum n (fun l => P j l * H q l)))) by (intros q Hq; rewrite rsum_mult_r, (E j q) by assumption; reflexivity).
  rewrite rsum_swap. apply rsum_ext. intros p Hp. rewrite (E i p) by assumption.
  rewrite rsum_mult_r. apply rsum_ext. intros q Hq. rewrite (SW p q Hp Hq). ring.
Qed.
Lemma upper_inn_cov n m H P Rm : sym_on n P -> sym_on m Rm -> forall i j, (i < m)%nat -> (j < m)%nat -> upper_of (inn_cov n H P Rm) i j = inn_cov n H P Rm i j.
Proof. intros SP SR. apply upper_sym_on, inn_cov_sym; assumption. Qed.
