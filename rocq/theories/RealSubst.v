(** * Two substitutions with absolute errors: norms and accuracy *)
From Coq Require Import Reals Lia Lra Psatz.
From Verif Require Import Prelude SpecReal SpecRange SpecSolve FloatErr FloatPredict FloatForward FloatRange RealSchur RealTri RealInverse FloatInv.
Open Scope R_scope.

Definition dlt (i j : nat) : R := if Nat.eqb i j then 1 else 0.

Section Subst.
Variables (n : nat) (l : nat -> nat -> R) (lam rho : R).
Notation N := (INR n).
Hypothesis Hn : (1 <= n)%nat.
Hypothesis Hl : 0 < lam.
Hypothesis Hd : forall k, (k < n)%nat -> l k k <> 0.
Hypothesis Hz : forall i k, (i < k)%nat -> l i k = 0.
Hypothesis HT : forall v, lam / 2 * rsum n (fun k => v k * v k) <= rsum n (fun p => rsum n (fun k => l k p * v k) * rsum n (fun k => l k p * v k)).
Hypothesis Hr : 0 <= rho.
Hypothesis R1 : 16 * N * (rho * rho) <= lam.
Hypothesis R2 : 16 * N * (rho * rho) <= 1.
Variables (j : nat) (y x : nat -> R).
Hypothesis Hj : (j < n)%nat.
Hypothesis Hy0 : forall k, (k < j)%nat -> y k = 0.
Hypothesis Hx0 : forall k, (k < j)%nat -> x k = 0.
Hypothesis Hy : forall i, (i < n)%nat -> Rabs (rsum n (fun k => l i k * y k) - dlt i j) <= rho * (1 + Rabs (y i)).
Hypothesis Hx : forall i, (j <= i < n)%nat -> Rabs (rsum n (fun k => l k i * x k) - y i) <= rho * (1 + Rabs (x i)).

Lemma nbound : 1 <= N. Proof. change 1 with (INR 1). apply le_INR, Hn. Qed.
Lemma sq_resid r a : Rabs r <= rho * (1 + Rabs a) -> r * r <= 2 * (rho * rho) * (1 + a * a).
Proof.
  intros H. pose proof (Rabs_pos r) as P. assert (E : forall b, b * b = Rabs b * Rabs b) by (intros b; rewrite <- Rabs_mult; symmetry; apply Rabs_pos_eq; nra).
  rewrite (E r), (E a). pose proof (Rabs_pos a) as Pa. set (b := Rabs a) in *. assert (Rabs r * Rabs r <= (rho * (1 + b)) * (rho * (1 + b))) by (apply Rmult_le_compat; assumption).
  pose proof (Rle_0_sqr (1 - b)) as Q. unfold Rsqr in Q. assert (0 <= rho * rho) by nra. assert ((rho * rho) * ((1 + b) * (1 + b)) <= (rho * rho) * (2 * (1 + b * b))) by (apply Rmult_le_compat_l; nra). lra.
Qed.
Lemma sum_resid m r a : (m <= n)%nat -> (forall i, (i < m)%nat -> Rabs (r i) <= rho * (1 + Rabs (a i))) -> rsum m (fun i => r i * r i) <= 2 * (rho * rho) * (N + rsum m (fun i => a i * a i)).
Proof.
  intros Hm H. apply Rle_trans with (rsum m (fun i => 2 * (rho * rho) * (1 + a i * a i))).
  - apply rsum_le. intros i Hi. apply sq_resid, H, Hi.
  - rewrite rsum_scal, rsum_plus, rsum_const. assert (INR m <= N) by (apply le_INR, Hm). assert (0 <= rho * rho) by nra. apply Rmult_le_compat_l; lra.
Qed.

Lemma y_size : rsum n (fun k => y k * y k) <= 9 / lam.
Proof.
  pose proof (low_block n l (lam / 2) Hd Hz ltac:(lra) HT n y (Nat.le_refl n)) as LB. pose proof nbound as HN.
  set (r := fun i => rsum n (fun k => l i k * y k) - dlt i j).
  pose proof (sum_resid n r y (Nat.le_refl n) Hy) as RS. pose proof (sum_two_sq n (fun i => dlt i j) r) as TS. cbv beta in TS.
  rewrite (rsum_ext n (fun i => rsum n (fun k => l i k * y k) * rsum n (fun k => l i k * y k)) (fun i => (dlt i j + r i) * (dlt i j + r i))) in LB by (intros; unfold r; ring).
  assert (D1 : rsum n (fun i => dlt i j * dlt i j) = 1).
  { rewrite (rsum_one n _ j) by (first [lia|intros p Hp Hne; unfold dlt; apply Nat.eqb_neq in Hne; rewrite Hne; ring]). unfold dlt. rewrite Nat.eqb_refl. ring. }
  pose proof (rsum_sq_abs n y) as Y0. set (y2 := rsum n (fun k => y k * y k)) in *. assert (K : 0 <= rho * rho) by nra.
  assert (K2 : 16 * (rho * rho) <= lam) by nra. assert (B : 16 * (rho * rho) * y2 <= lam * y2) by (apply Rmult_le_compat_r; lra).
  apply Rmult_le_reg_l with lam; [exact Hl|]. replace (lam * (9 / lam)) with 9 by (field; lra). lra.
Qed.
Lemma x_size : rsum n (fun k => x k * x k) <= 72 / lam ^ 2 + 1.
Proof.
  pose proof (up_block n l (lam / 2) Hd Hz ltac:(lra) HT j x ltac:(lia) Hx0) as UB. pose proof nbound as HN. pose proof y_size as YN.
  set (r := fun p => if Nat.ltb p j then 0 else rsum n (fun k => l k p * x k) - y p).
  pose proof (sum_resid n r x (Nat.le_refl n)) as RS.
  assert (H : forall i, (i < n)%nat -> Rabs (r i) <= rho * (1 + Rabs (x i))).
  { intros i Hi. unfold r. destruct (Nat.ltb_spec i j); [|apply Hx; lia]. rewrite Rabs_R0. pose proof (Rabs_pos (x i)). nra. }
  specialize (RS H). pose proof (sum_two_sq n y r) as TS.
  assert (E : rsum n (fun p => if Nat.ltb p j then 0 else rsum n (fun k => l k p * x k) * rsum n (fun k => l k p * x k)) <= rsum n (fun i => (y i + r i) * (y i + r i))).
  { apply rsum_le. intros p Hp. unfold r. destruct (Nat.ltb_spec p j); [pose proof (Rle_0_sqr (y p + 0)) as Q; unfold Rsqr in Q; exact Q|right; ring]. }
  pose proof (rsum_sq_abs n x) as X0. set (x2 := rsum n (fun k => x k * x k)) in *. assert (K : 0 <= rho * rho) by nra.
  assert (K2 : 16 * (rho * rho) <= lam) by nra. assert (B : 16 * (rho * rho) * x2 <= lam * x2) by (apply Rmult_le_compat_r; lra).
  set (z := / lam). assert (Pz : 0 < z) by (apply Rinv_0_lt_compat, Hl). assert (Ez : lam * z = 1) by (unfold z; field; lra).
  replace (9 / lam) with (9 * z) in YN by reflexivity. replace (72 / lam ^ 2) with (72 * (z * z)) by (unfold z; field; lra).
  apply Rmult_le_reg_l with lam; [exact Hl|]. replace (lam * (72 * (z * z) + 1)) with (72 * ((lam * z) * z) + lam) by ring. rewrite Ez. lra.
Qed.

(** the distance to the exact solution t of L L' t = e_j *)
Lemma x_near (ys t : nat -> R) : (forall i, (i < n)%nat -> rsum n (fun k => l i k * ys k) = dlt i j) -> (forall p, (p < n)%nat -> rsum n (fun k => l k p * t k) = ys p) ->
  forall i, (j <= i < n)%nat -> (x i - t i) * (x i - t i) <= rho * rho * (8 * (N + 1) / lam + 16 * N / lam ^ 2 + 720 / lam ^ 3).
Proof.
  intros Hys Ht i Hi. pose proof y_size as YN. pose proof x_size as XN. pose proof nbound as HN.
  set (dy := fun k => y k - ys k). set (r := fun i => rsum n (fun k => l i k * y k) - dlt i j).
  pose proof (low_block n l (lam / 2) Hd Hz ltac:(lra) HT n dy (Nat.le_refl n)) as LB.
  rewrite (rsum_ext n (fun i => rsum n (fun k => l i k * dy k) * rsum n (fun k => l i k * dy k)) (fun i => r i * r i)) in LB.
  2:{ intros p Hp. assert (E : rsum n (fun k => l p k * dy k) = r p); [|rewrite E; reflexivity]. unfold r. rewrite <- (Hys p Hp), rsum_minus. apply rsum_ext. intros k Hk. unfold dy. ring. }
  pose proof (sum_resid n r y (Nat.le_refl n) Hy) as RS.
  set (dx := fun k => if Nat.ltb k j then 0 else x k - t k). set (r2 := fun p => if Nat.ltb p j then 0 else rsum n (fun k => l k p * x k) - y p).
  assert (D0 : forall k, (k < j)%nat -> dx k = 0) by (intros k Hk; unfold dx; destruct (Nat.ltb_spec k j); [reflexivity|lia]).
  pose proof (up_block n l (lam / 2) Hd Hz ltac:(lra) HT j dx ltac:(lia) D0) as UB.
  assert (H2 : forall i, (i < n)%nat -> Rabs (r2 i) <= rho * (1 + Rabs (x i))).
  { intros p Hp. unfold r2. destruct (Nat.ltb_spec p j); [|apply Hx; lia]. rewrite Rabs_R0. pose proof (Rabs_pos (x p)). nra. }
  pose proof (sum_resid n r2 x (Nat.le_refl n) H2) as RS2. pose proof (sum_two_sq n dy r2) as TS.
  assert (E : rsum n (fun p => if Nat.ltb p j then 0 else rsum n (fun k => l k p * dx k) * rsum n (fun k => l k p * dx k)) <= rsum n (fun i => (dy i + r2 i) * (dy i + r2 i))).
  { apply rsum_le. intros p Hp. destruct (Nat.ltb_spec p j) as [Hlt|Hge]; [pose proof (Rle_0_sqr (dy p + r2 p)) as Q; unfold Rsqr in Q; exact Q|].
    assert (G : rsum n (fun k => l k p * dx k) = dy p + r2 p).
    { unfold dy, r2. destruct (Nat.ltb_spec p j); [lia|]. rewrite <- (Ht p Hp). replace (y p - rsum n (fun k => l k p * t k) + (rsum n (fun k => l k p * x k) - y p)) with (rsum n (fun k => l k p * x k) - rsum n (fun k => l k p * t k)) by ring.
      rewrite rsum_minus. apply rsum_ext. intros k Hk. unfold dx. destruct (Nat.ltb_spec k j); [rewrite Hz by lia; ring|ring]. }
    rewrite G. lra. }
  pose proof (one_sq n dx i ltac:(lia)) as O. unfold dx in O at 1 2. destruct (Nat.ltb_spec i j); [lia|]. eapply Rle_trans; [exact O|].
  set (dx2 := rsum n (fun k => dx k * dx k)) in *. set (dy2 := rsum n (fun k => dy k * dy k)) in *. set (g := rho * rho) in *. assert (K : 0 <= g) by (unfold g; nra).
  set (z := / lam). assert (Pz : 0 < z) by (apply Rinv_0_lt_compat, Hl).
  replace (9 / lam) with (9 * z) in YN by reflexivity. replace (72 / lam ^ 2) with (72 * (z * z)) in XN by (unfold z; field; lra).
  replace (8 * (N + 1) / lam + 16 * N / lam ^ 2 + 720 / lam ^ 3) with (8 * (N + 1) * z + 16 * N * (z * z) + 720 * (z * z * z)) by (unfold z; field; lra).
  assert (Y1 : dy2 <= 2 * z * (2 * g * (N + 9 * z))).
  { replace dy2 with (2 * z * (lam / 2 * dy2)) by (unfold z; field; lra). apply Rmult_le_compat_l; [lra|]. eapply Rle_trans; [exact LB|]. eapply Rle_trans; [exact RS|]. apply Rmult_le_compat_l; lra. }
  assert (X1 : dx2 <= 2 * z * (2 * (2 * z * (2 * g * (N + 9 * z)) + 2 * g * (N + (72 * (z * z) + 1))))).
  { replace dx2 with (2 * z * (lam / 2 * dx2)) by (unfold z; field; lra). apply Rmult_le_compat_l; [lra|].
    assert (2 * g * (N + rsum n (fun k => x k * x k)) <= 2 * g * (N + (72 * (z * z) + 1))) by (apply Rmult_le_compat_l; lra). lra. }
  eapply Rle_trans; [exact X1|]. right. ring.
Qed.
End Subst.

(** the solution t of L L' t = e_j against column j of the inverse W of a matrix within d of L L' *)
Section Near.
Variables (n : nat) (l : nat -> nat -> R) (lam : R).
Notation N := (INR n).
Hypothesis Hn : (1 <= n)%nat.
Hypothesis Hl : 0 < lam.
Hypothesis HT : forall v, lam / 2 * rsum n (fun k => v k * v k) <= rsum n (fun p => rsum n (fun k => l k p * v k) * rsum n (fun k => l k p * v k)).
Variables (a W : nat -> nat -> R) (d : R) (j : nat) (ys t : nat -> R).
Hypothesis Ea : eig_above n a lam.
Hypothesis IW : inverse_of n a W.
Hypothesis Hd0 : 0 <= d.
Hypothesis Hd : forall i k, (i < n)%nat -> (k < n)%nat -> Rabs (a i k - rsum n (fun q => l i q * l k q)) <= d.
Hypothesis Hj : (j < n)%nat.
Hypothesis Hys : forall i, (i < n)%nat -> rsum n (fun k => l i k * ys k) = dlt i j.
Hypothesis Ht : forall p, (p < n)%nat -> rsum n (fun k => l k p * t k) = ys p.

Lemma tri_near i : (i < n)%nat -> Rabs (t i - W i j) <= 2 * N * d / lam ^ 2.
Proof.
  intros Hi. set (z := / lam). assert (Hz : 0 < z) by (apply Rinv_0_lt_compat, Hl). pose proof (nbound n Hn) as HN.
  set (T := fun i j => rsum n (fun k => l i k * l j k)). set (w := fun k => W k j). set (dv := fun k => t k - w k).
  assert (TT : forall p, (p < n)%nat -> rsum n (fun k => T p k * t k) = dlt p j).
  { intros p Hp. rewrite <- (Hys p Hp). unfold T. rewrite (rsum_ext n _ (fun k => rsum n (fun q => l p q * (l k q * t k)))) by (intros k Hk; rewrite rsum_mult_r; apply rsum_ext; intros; ring).
    rewrite rsum_swap. apply rsum_ext. intros q Hq. rewrite <- (Ht q Hq), <- rsum_scal. reflexivity. }
  assert (Td : forall p, (p < n)%nat -> rsum n (fun k => T p k * dv k) = rsum n (fun k => (a p k - T p k) * w k)).
  { intros p Hp. rewrite (rsum_ext n (fun k => T p k * dv k) (fun k => T p k * t k - T p k * w k)) by (intros; unfold dv; ring). rewrite <- rsum_minus, (TT p Hp).
    rewrite (rsum_ext n (fun k => (a p k - T p k) * w k) (fun k => a p k * w k - T p k * w k)) by (intros; ring). rewrite <- rsum_minus. f_equal. unfold w, dlt. symmetry. apply IW; lia. }
  assert (Nd : lam / 2 * rsum n (fun k => dv k * dv k) <= rsum n (fun p => dv p * rsum n (fun k => (a p k - T p k) * w k))).
  { eapply Rle_trans; [apply HT|]. right. rewrite <- (rsum_ext n (fun p => dv p * rsum n (fun k => T p k * dv k)) (fun p => dv p * rsum n (fun k => (a p k - T p k) * w k))) by (intros p Hp; rewrite Td by exact Hp; reflexivity).
    transitivity (rsum n (fun p => rsum n (fun q => l q p * dv q * rsum n (fun k => l k p * dv k)))).
    - apply rsum_ext. intros p Hp. rewrite rsum_mult_r. reflexivity.
    - rewrite rsum_swap. apply rsum_ext. intros q Hq. unfold T. rewrite <- rsum_scal.
      rewrite (rsum_ext n (fun k => dv q * (rsum n (fun k0 => l q k0 * l k k0) * dv k)) (fun k => rsum n (fun p => l q p * dv q * (l k p * dv k)))) by (intros k Hk; rewrite rsum_mult_r, <- rsum_scal; apply rsum_ext; intros; ring).
      rewrite rsum_swap. apply rsum_ext. intros p Hp. rewrite <- rsum_scal. reflexivity. }
  set (s1 := rsum n (fun k => Rabs (dv k))) in *. set (s2 := rsum n (fun k => Rabs (w k))) in *.
  assert (P1 : 0 <= s1) by (apply rsum_pos; intros; apply Rabs_pos). assert (P2 : 0 <= s2) by (apply rsum_pos; intros; apply Rabs_pos).
  assert (Nb : lam / 2 * rsum n (fun k => dv k * dv k) <= d * (s1 * s2)).
  { eapply Rle_trans; [exact Nd|]. unfold s1. rewrite rsum_mult_r, <- rsum_scal. apply rsum_le. intros p Hp. eapply Rle_trans; [apply Rle_abs|]. rewrite Rabs_mult. replace (d * (Rabs (dv p) * s2)) with (Rabs (dv p) * (d * s2)) by ring. apply Rmult_le_compat_l; [apply Rabs_pos|].
    eapply Rle_trans; [apply rsum_abs|]. unfold s2. rewrite <- rsum_scal. apply rsum_le. intros k Hk. rewrite Rabs_mult. apply Rmult_le_compat_r; [apply Rabs_pos|]. apply Hd; assumption. }
  set (v2 := rsum n (fun k => dv k * dv k)) in *. assert (V2 : 0 <= v2) by apply rsum_sq_abs. set (w2 := rsum n (fun k => w k * w k)) in *. assert (W2 : 0 <= w2) by apply rsum_sq_abs.
  pose proof (sum_sq n dv) as S1. fold s1 v2 in S1. pose proof (sum_sq n w) as S2. fold s2 w2 in S2.
  assert (Ez : lam * z = 1) by (unfold z; field; lra).
  assert (WB : w2 <= z * z).
  { pose proof (Ea w) as Q. fold w2 in Q. unfold quad in Q.
    rewrite (rsum_ext n _ (fun p => if Nat.eqb p j then w p else 0)) in Q.
    2:{ intros p Hp. rewrite (rsum_ext n _ (fun k => w p * (a p k * w k))) by (intros; ring). rewrite rsum_scal. unfold w at 2. rewrite IW by lia. destruct (Nat.eqb p j); ring. }
    rewrite (rsum_one n _ j) in Q by (first [lia|intros p Hp Hne; apply Nat.eqb_neq in Hne; rewrite Hne; reflexivity]). rewrite Nat.eqb_refl in Q.
    pose proof (one_sq n w j ltac:(lia)) as O. fold w2 in O.
    assert (Q2 : (lam * w2) * (lam * w2) <= w2). { eapply Rle_trans; [|exact O]. assert (0 <= lam * w2) by nra. apply Rmult_le_compat; lra. }
    destruct (Rle_lt_or_eq_dec 0 w2 W2) as [Hp|He0]; [|nra].
    assert (lam * lam * w2 <= 1). { apply Rmult_le_reg_r with w2; [exact Hp|]. nra. }
    replace w2 with ((z * z) * (lam * lam * w2)) by (unfold z; field; lra). nra. }
  assert (B : (lam / 2) * (lam / 2) * v2 <= (d * N) * (d * N) * w2).
  { assert (K1 : (lam / 2 * v2) * (lam / 2 * v2) <= (d * (s1 * s2)) * (d * (s1 * s2))) by (apply Rmult_le_compat; nra).
    assert (K2 : (d * (s1 * s2)) * (d * (s1 * s2)) <= d * d * ((N * v2) * (N * w2))).
    { replace ((d * (s1 * s2)) * (d * (s1 * s2))) with (d * d * ((s1 * s1) * (s2 * s2))) by ring. apply Rmult_le_compat_l; [nra|]. apply Rmult_le_compat; nra. }
    destruct (Rle_lt_or_eq_dec 0 v2 V2) as [Hp|He0]; [|rewrite <- He0, Rmult_0_r; apply Rmult_le_pos; [nra|exact W2]].
    apply Rmult_le_reg_r with v2; [exact Hp|]. nra. }
  replace (2 * N * d / lam ^ 2) with (sqrt ((2 * N * d * (z * z)) * (2 * N * d * (z * z)))).
  2:{ rewrite sqrt_square; [unfold z; field; lra|]. apply Rmult_le_pos; nra. }
  apply sqrt_abs_le. eapply Rle_trans; [apply (one_sq n dv i); lia|]. fold v2.
  assert (v2 <= 4 * (z * z) * ((d * N) * (d * N) * w2)).
  { replace v2 with (4 * (z * z) * ((lam / 2) * (lam / 2) * v2)) by (unfold z; field; lra). apply Rmult_le_compat_l; [nra|exact B]. }
  eapply Rle_trans; [exact H|]. assert ((d * N) * (d * N) * w2 <= (d * N) * (d * N) * (z * z)) by (apply Rmult_le_compat_l; [nra|exact WB]).
  assert (0 <= z * z) by nra. replace (2 * N * d * (z * z) * (2 * N * d * (z * z))) with (4 * (z * z) * ((d * N) * (d * N) * (z * z))) by ring. apply Rmult_le_compat_l; lra.
Qed.
End Near.
