(** * When the floating-point Cholesky decomposition succeeds *)
From Coq Require Import ZArith Reals Lia Lra Psatz.
From Flocq Require Import Core BinarySingleNaN.
From Verif Require Import Prelude Spec SpecBits Matrix Filter SpecFilter Kernels FloatNum SpecFloats SpecReal SpecRange SpecSolve FloatFlocq FloatOps FloatErr FloatChol FloatPredict FloatForward FloatRange FloatFactor FloatScalar RealSchur BitsProof Chol FloatSolve.
Import SpecFloat.
Open Scope R_scope.

Section Solvable.
Variables (c : cfg) (prec emax : Z) (sz : bool).
Hypothesis HF : format_ok prec emax.
Notation NN := (sf_num prec emax sz).
Notation u := (uro prec). Notation e := (eta prec emax).

Lemma rcell_oval n (A : list spec_float) i j : rcell n A i j = oval (cell n A i j). Proof. reflexivity. Qed.

(** rows of squares bounded by tau: products of rows are, too *)
Lemma rows_tau K f g t : rsum K (fun k => f k * f k) <= t -> rsum K (fun k => g k * g k) <= t -> rsum K (fun k => Rabs (f k) * Rabs (g k)) <= t.
Proof. intros H1 H2. pose proof (cs_mean K f g). lra. Qed.

(** v' L L' v is a sum of squares *)
Lemma quad_square n (l : nat -> nat -> R) v : quad n (fun i j => rsum n (fun p => l i p * l j p)) v = rsum n (fun p => rsum n (fun i => l i p * v i) * rsum n (fun i => l i p * v i)).
Proof.
  unfold quad. rewrite (rsum_ext n _ (fun i => rsum n (fun p => l i p * v i * rsum n (fun j => l j p * v j)))).
  - rewrite rsum_swap. apply rsum_ext. intros p Hp. rewrite rsum_mult_r. reflexivity.
  - intros i Hi. rewrite (rsum_ext n _ (fun j => rsum n (fun p => l i p * v i * (l j p * v j)))).
    + rewrite rsum_swap. apply rsum_ext. intros p Hp. rewrite <- rsum_scal. reflexivity.
    + intros j Hj. rewrite !rsum_mult_r. apply rsum_ext. intros. ring.
Qed.
Lemma quad_near n a b d v : 0 <= d -> (forall i j, (i < n)%nat -> (j < n)%nat -> Rabs (a i j - b i j) <= d) -> quad n b v - INR n * d * rsum n (fun i => v i * v i) <= quad n a v.
Proof.
  intros Hd H. assert (G : quad n b v - quad n a v <= d * (rsum n (fun k => Rabs (v k)) * rsum n (fun k => Rabs (v k)))).
  { unfold quad. rewrite rsum_minus. rewrite <- dsum_prod. apply rsum_le. intros i Hi. rewrite rsum_minus. apply rsum_le. intros j Hj.
    replace (b i j * v i * v j - a i j * v i * v j) with (- ((a i j - b i j) * (v i * v j))) by ring.
    eapply Rle_trans; [apply Rle_abs|]. rewrite Rabs_Ropp, !Rabs_mult. pose proof (H i j Hi Hj). pose proof (Rabs_pos (v i)). pose proof (Rabs_pos (v j)).
    assert (0 <= Rabs (v i) * Rabs (v j)) by nra. nra. }
  pose proof (sum_sq n v). nra.
Qed.

Theorem factor_exists n A sig lam : (1 <= n)%nat -> (4 <= emax)%Z -> valid c n n A -> all_in_format prec emax A ->
  (forall i j, (i <= j < n)%nat -> exists x, cell n A i j = Some x /\ sf_finite x = true) ->
  (forall i, (i < n)%nat -> rcell n A i i <= sig) -> eig_above n (upper_sym n A) lam -> ch_ready prec emax n sig lam ->
  exists L, cholesky_decompose_lower c NN n n A = Ok (true, L) /\ fin_matrix n n L /\
    (forall i, (i < n)%nat -> 0 < rcell n L i i /\ lam / 4 <= rcell n L i i * rcell n L i i) /\
    (forall i, (i < n)%nat -> rsum n (fun k => rcell n L i k * rcell n L i k) <= ch_tau prec emax n sig) /\
    (forall i j, (i < n)%nat -> (j < n)%nat -> Rabs (upper_sym n A i j - rsum n (fun k => rcell n L i k * rcell n L j k)) <= ch_gam prec n * ch_tau prec emax n sig + ch_eps prec emax n sig).
Proof.
  intros Hn H4 VA FA FS Hsig Heig HR. pose proof (cholesky_spec c NN n A Hn VA) as HS.
  destruct (cholesky_decompose_lower c NN n n A) as [[b L]|er] eqn:EC; [clear HS|exfalso; apply (proj2 HS); red; split; [discriminate|]; split; [discriminate|]; split; [discriminate|]; split; [discriminate|]; intros; eexists; split; [reflexivity|discriminate]].
  destruct (cholesky_bits c NN n A b L Hn VA EC) as (_ & HB).
  assert (HSx : forall i j, (i <= j < n)%nat -> exists x, cell n A i j = Some x /\ valid_binary prec emax x = true /\ sf_finite x = true).
  { intros i j Hij. destruct (FS i j Hij) as (x & Ex & Fx). exists x. split; [exact Ex|]. split; [|exact Fx]. unfold all_in_format in FA. rewrite Forall_forall in FA. apply FA. exact (nth_error_In _ _ Ex). }
  destruct b; [|exfalso; exact (not_refused prec emax sz HF H4 n (cell n A) (cell n L) sig lam Hn HSx Hsig Heig HR HB)].
  destruct (factor_rows prec emax sz HF H4 n (cell n A) (cell n L) sig lam Hn HSx Hsig Heig HR HB) as (F1 & F2 & F3 & F4).
  exists L. split; [reflexivity|]. split; [intros i j Hi Hj; destruct (F1 i j Hi Hj) as (x & Ex & _ & Fx); eauto|]. split; [exact F2|]. split; [exact F3|].
  intros i j Hi Hj. eapply Rle_trans; [apply F4; assumption|]. apply Rplus_le_compat_r. apply Rmult_le_compat_l.
  - pose proof (u_small prec emax HF). assert (1 <= (1 + u) ^ (n + 3)) by (apply pow_R1_Rle; lra). unfold ch_gam. lra.
  - apply rows_tau; apply F3; assumption.
Qed.

Theorem accepted_psd n A L sig : (1 <= n)%nat -> (4 <= emax)%Z -> valid c n n A -> all_in_format prec emax A ->
  cholesky_decompose_lower c NN n n A = Ok (true, L) -> fin_matrix n n L ->
  (forall i, (i < n)%nat -> rcell n A i i <= sig) -> ch_gam prec n + ch_h prec emax n <= / 2 ->
  eig_above n (upper_sym n A) (- (INR n * (ch_gam prec n * ch_tau prec emax n sig + ch_eps prec emax n sig))).
Proof.
  intros Hn H4 VA FA EC FL Hsig Hg. destruct (cholesky_bits c NN n A true L Hn VA EC) as (_ & HB).
  pose proof (cholesky_backward c prec emax sz HF n A L Hn H4 VA FA EC) as BW. cbv zeta in BW.
  assert (FL' : forall i j x, (j <= i < n)%nat -> cell n L i j = Some x -> sf_finite x = true).
  { intros i j x Hij Ex. destruct (FL i j ltac:(lia) ltac:(lia)) as (y & Ey & Fy). congruence. }
  specialize (BW FL'). clear FL'. destruct HB as (_ & HZ).
  assert (Z : forall i k, (i < k < n)%nat -> rcell n L i k = 0) by (intros i k Hk; unfold rcell; rewrite (HZ i k Hk); reflexivity).
  pose proof (u_small prec emax HF) as Hu. pose proof (eta_pos prec emax) as He.
  assert (HP : forall j k, (j <= k)%nat -> 1 <= (1 + u) ^ j <= (1 + u) ^ k). { intros j k Hj. split; [apply pow_R1_Rle; lra|apply Rle_pow; [lra|exact Hj]]. }
  assert (HN : 1 <= INR n) by (change 1 with (INR 1); apply le_INR, Hn).
  set (gam := ch_gam prec n) in *. set (h := ch_h prec emax n) in *. set (tau := ch_tau prec emax n sig) in *. set (eps := ch_eps prec emax n sig) in *.
  assert (Hgam : 0 <= gam) by (unfold gam, ch_gam; pose proof (HP 0%nat (n + 3)%nat ltac:(lia)); lra).
  assert (Hh : 0 <= h) by (unfold h, ch_h; pose proof (HP 0%nat n ltac:(lia)); nra).
  assert (EQ : forall i j, (i <= j < n)%nat -> Rabs (rcell n A i j - rsum n (fun k => rcell n L i k * rcell n L j k)) <= gam * rsum n (fun k => Rabs (rcell n L i k) * Rabs (rcell n L j k)) + h * (INR n + 1 + rsum n (fun k => rcell n L i k * rcell n L i k))).
  { intros i j Hij. rewrite !(rsum_trunc (Datatypes.S i) n) by (first [lia|intros p Hp; rewrite !(Z i p) by lia; rewrite ?Rabs_R0; ring]).
    eapply Rle_trans; [apply BW, Hij|]. apply Rplus_le_compat.
    - apply Rmult_le_compat_r; [apply rsum_pos; intros; apply Rmult_le_pos; apply Rabs_pos|]. unfold gam, ch_gam. pose proof (HP (i + 3)%nat (n + 3)%nat ltac:(lia)). lra.
    - assert (E1 : (1 + u) ^ i * e <= h) by (unfold h, ch_h; apply Rmult_le_compat_r; [lra|apply HP; lia]).
      assert (INR i <= INR n) by (apply le_INR; lia). pose proof (pos_INR i).
      assert (rcell n L i i * rcell n L i i <= rsum (S i) (fun k => rcell n L i k * rcell n L i k)) by (rewrite rsum_last; pose proof (rsum_sq_abs i (rcell n L i)); lra).
      pose proof (Rle_0_sqr (rcell n L i i - 1)) as Q. unfold Rsqr in Q.
      assert (0 <= (1 + u) ^ i * e) by (pose proof (HP 0%nat i ltac:(lia)); nra).
      eapply Rle_trans; [apply (Rmult_le_compat_l _ _ (INR n + 1 + rsum (S i) (fun k => rcell n L i k * rcell n L i k))); lra|].
      apply Rmult_le_compat_r; [|exact E1]. pose proof (rsum_sq_abs (S i) (rcell n L i)). lra. }
  assert (TT : forall i, (i < n)%nat -> rsum n (fun k => rcell n L i k * rcell n L i k) <= tau).
  { intros i Hi. pose proof (EQ i i ltac:(lia)) as Q. rewrite (rsum_ext n (fun k => Rabs (rcell n L i k) * Rabs (rcell n L i k)) (fun k => rcell n L i k * rcell n L i k)) in Q by (intros k Hk; rewrite <- Rabs_mult; apply Rabs_pos_eq; nra).
    pose proof (Hsig i Hi). pose proof (rsum_sq_abs n (rcell n L i)) as HX. set (X := rsum n (fun k => rcell n L i k * rcell n L i k)) in *.
    assert (X - rcell n A i i <= Rabs (rcell n A i i - X)) by (rewrite Rabs_minus_sym; apply Rle_abs).
    assert ((gam + h) * X <= / 2 * X) by (apply Rmult_le_compat_r; lra). unfold tau, ch_tau. fold h. lra. }
  assert (Htau : 0 <= tau) by (eapply Rle_trans; [apply (rsum_sq_abs n (rcell n L 0))|apply TT; lia]).
  assert (D : 0 <= gam * tau + eps). { unfold eps, ch_eps. fold h. fold tau. assert (0 <= gam * tau) by nra. assert (0 <= h * (INR n + 1 + tau)) by (apply Rmult_le_pos; lra). lra. }
  assert (EQ' : forall i j, (i < n)%nat -> (j < n)%nat -> Rabs (upper_sym n A i j - rsum n (fun k => rcell n L i k * rcell n L j k)) <= gam * tau + eps).
  { assert (G : forall i j, (i <= j < n)%nat -> Rabs (upper_sym n A i j - rsum n (fun k => rcell n L i k * rcell n L j k)) <= gam * tau + eps).
    { intros i j Hij. unfold upper_sym. rewrite Nat.min_l, Nat.max_r by lia. eapply Rle_trans; [apply EQ, Hij|]. apply Rplus_le_compat.
      - apply Rmult_le_compat_l; [exact Hgam|]. apply rows_tau; apply TT; lia.
      - unfold eps, ch_eps. fold h. fold tau. apply Rmult_le_compat_l; [exact Hh|]. pose proof (TT i ltac:(lia)). lra. }
    intros i j Hi Hj. destruct (Nat.le_ge_cases i j); [apply G; lia|].
    unfold upper_sym. rewrite Nat.min_comm, Nat.max_comm. rewrite (rsum_ext n (fun k => rcell n L i k * rcell n L j k) (fun k => rcell n L j k * rcell n L i k)) by (intros; ring). apply G. lia. }
  intros v. pose proof (quad_near n (upper_sym n A) _ _ v D EQ') as Q. rewrite quad_square in Q. cbv beta in Q.
  pose proof (rsum_sq_abs n (fun p => rsum n (fun i => rcell n L i p * v i))) as Q2. cbv beta in Q2. lra.
Qed.
End Solvable.
