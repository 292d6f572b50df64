(** * Inverting a well-conditioned matrix *)
From Coq Require Import ZArith Reals Lia Lra Psatz.
From Flocq Require Import Core BinarySingleNaN.
From Verif Require Import Prelude Spec SpecBits Matrix Filter SpecFilter Kernels FloatNum SpecFloats SpecReal SpecRange SpecSolve FloatFlocq FloatOps FloatErr FloatChol FloatPredict FloatForward FloatRange FloatFactor FloatScalar RealSchur BitsProof Chol Inv FloatSolve FloatSolvable FloatInv.
Import SpecFloat.
Open Scope R_scope.

Section Invert.
Variables (prec emax : Z) (sz : bool).
Hypothesis HF : format_ok prec emax.
Hypothesis H4 : (4 <= emax)%Z.
Notation NN := (sf_num prec emax sz).
Notation vf := (valid_binary prec emax).

(** on cells: S with its factor L and the inverse X computed from it, against a real symmetric matrix within [d] of the upper triangle of S *)
Lemma invert_cells n (S L X : nat -> nat -> option spec_float) (sig lam : R) : (1 <= n)%nat ->
  (forall i j, (i <= j < n)%nat -> exists x, S i j = Some x /\ vf x = true /\ sf_finite x = true) ->
  (forall i, (i < n)%nat -> oval (S i i) <= sig) -> eig_above n (sa S) lam -> inv_ready prec emax n sig lam ->
  (b_factor NN n S L \/ b_no_factor NN n S L) -> b_inverse NN n L X ->
  b_factor NN n S L /\ fin_cells prec emax n L /\
  (forall i j, (i < n)%nat -> (j < n)%nat -> exists v, X i j = Some v /\ vf v = true /\ sf_finite v = true /\ Rabs (val v) <= 5 / lam) /\
  forall (a W : nat -> nat -> R) d, (forall i j, (i < n)%nat -> (j < n)%nat -> a i j = a j i) -> eig_above n a lam -> inverse_of n a W -> 0 <= d ->
    (forall i j, (i < n)%nat -> (j < n)%nat -> Rabs (a i j - sa S i j) <= d) ->
    forall i j, (i < n)%nat -> (j < n)%nat -> Rabs (oval (X i j) - W i j) <= inv_err prec emax n sig lam (d + (ch_gam prec n * ch_tau prec emax n sig + ch_eps prec emax n sig)).
Proof.
  intros Hn HS Hsig Heig HR OR (Y & HX). pose proof HR as (HC & _).
  destruct (has_factor prec emax sz HF H4 n S L sig lam Hn HS Hsig Heig HC OR) as (HB & _).
  destruct (factor_rows prec emax sz HF H4 n S L sig lam Hn HS Hsig Heig HC HB) as (F1 & F2 & F3 & F4).
  pose proof (factor_recip prec emax sz HF H4 n S L sig lam Hn HS Hsig Heig HC HB) as F5.
  assert (Z : forall i k, (i < k < n)%nat -> oval (L i k) = 0) by (intros i k Hk; rewrite (proj2 HB i k Hk); reflexivity).
  set (dE := ch_gam prec n * ch_tau prec emax n sig + ch_eps prec emax n sig).
  pose proof (u_small prec emax HF) as Hu. assert (Hg : 0 <= ch_gam prec n) by (unfold ch_gam; pose proof (pow_R1_Rle (1 + uro prec) (n + 3) ltac:(lra)); lra).
  assert (EQ : forall i j, (i < n)%nat -> (j < n)%nat -> Rabs (sa S i j - rsum n (fun k => oval (L i k) * oval (L j k))) <= dE).
  { intros i j Hi Hj. eapply Rle_trans; [apply F4; assumption|]. apply Rplus_le_compat_r. apply Rmult_le_compat_l; [exact Hg|]. apply rows_tau; apply F3; assumption. }
  assert (D0 : 0 <= dE). { eapply Rle_trans; [apply Rabs_pos|apply (EQ 0%nat 0%nat); lia]. }
  assert (HN : 1 <= INR n) by (change 1 with (INR 1); apply le_INR, Hn).
  assert (ND : INR n * dE <= lam / 4).
  { destruct HC as (R1 & R2 & R3 & _). assert (Ht : 0 <= ch_tau prec emax n sig) by (eapply Rle_trans; [apply (rsum_sq_abs n (fun k => oval (L 0%nat k)))|apply F3; lia]).
    assert (He : 0 <= ch_eps prec emax n sig). { unfold ch_eps, ch_h. pose proof (eta_pos prec emax). pose proof (pow_R1_Rle (1 + uro prec) n ltac:(lra)). apply Rmult_le_pos; [apply Rmult_le_pos; lra|lra]. }
    assert (0 <= INR n * (ch_gam prec n * ch_tau prec emax n sig)) by (apply Rmult_le_pos; [lra|apply Rmult_le_pos; lra]). unfold dE. nra. }
  assert (FQ : forall v, 3 / 4 * lam * rsum n (fun k => v k * v k) <= rsum n (fun p => rsum n (fun k => oval (L k p) * v k) * rsum n (fun k => oval (L k p) * v k))).
  { intros v. rewrite <- (quad_square n (fun i k => oval (L i k)) v). pose proof (Heig v) as Q.
    assert (EQ' : forall i j, (i < n)%nat -> (j < n)%nat -> Rabs (rsum n (fun p => oval (L i p) * oval (L j p)) - sa S i j) <= dE) by (intros i j Hi Hj; rewrite Rabs_minus_sym; apply EQ; assumption).
    pose proof (quad_near n _ (sa S) dE v D0 EQ') as Q2. pose proof (rsum_sq_abs n v) as V. cbv beta in Q2. nra. }
  split; [exact HB|]. split; [exact F1|]. split.
  - apply (inv_finite prec emax sz HF n L X sig lam Hn HR F1 Z F2 F3 FQ F5 Y HX).
  - intros a W d Sa Ea IW Hd0 Hd i j Hi Hj.
    destruct (inv_accurate prec emax sz HF n L X sig lam Hn HR F1 Z F2 F3 FQ F5 Y HX a W (d + dE) Sa Ea IW ltac:(lra)) with (i := i) (j := j) as (v & Ev & _ & _ & _ & Er); auto.
    + intros p q Hp Hq. replace (a p q - rsum n (fun k => oval (L p k) * oval (L q k))) with ((a p q - sa S p q) + (sa S p q - rsum n (fun k => oval (L p k) * oval (L q k)))) by ring.
      eapply Rle_trans; [apply Rabs_triang|]. apply Rplus_le_compat; [apply Hd|apply EQ]; assumption.
    + rewrite Ev. exact Er.
Qed.

Variable c : cfg.
Theorem invert_accurate n A inv0 sig lam : (1 <= n)%nat -> valid c n n A -> valid c n n inv0 -> all_in_format prec emax A ->
  (forall i j, (i <= j < n)%nat -> exists x, cell n A i j = Some x /\ sf_finite x = true) ->
  (forall i, (i < n)%nat -> rcell n A i i <= sig) -> eig_above n (upper_sym n A) lam -> inv_ready prec emax n sig lam ->
  exists L X, cholesky_decompose_lower c NN n n A = Ok (true, L) /\ invert_l_cholesky c NN n L inv0 = Ok X /\ fin_matrix n n X /\ at_most n n X (5 / lam) /\
    forall W, inverse_of n (upper_sym n A) W -> forall i j, (i < n)%nat -> (j < n)%nat ->
      Rabs (rcell n X i j - W i j) <= inv_err prec emax n sig lam (ch_gam prec n * ch_tau prec emax n sig + ch_eps prec emax n sig).
Proof.
  intros Hn VA VI FA FS Hsig Heig HR. pose proof HR as (HC & _).
  destruct (factor_exists c prec emax sz HF n A sig lam Hn H4 VA FA FS Hsig Heig HC) as (L & EL & _).
  destruct (cholesky_bits c NN n A true L Hn VA EL) as (STL & HB).
  assert (VL : valid c n n L) by (apply (valid_length c n n A); [exact VA|apply STL]).
  pose proof (invert_spec c NN n L inv0 Hn VL VI) as IS. destruct (invert_l_cholesky c NN n L inv0) as [X|er] eqn:EX.
  2:{ exfalso. destruct IS as (_ & NT). apply NT. split; [|intros i x _ _; discriminate].
      red; split; [discriminate|]; split; [discriminate|]; split; [discriminate|]; split; [discriminate|]; intros; eexists; split; [reflexivity|discriminate]. }
  destruct (invert_bits c NN n L inv0 X Hn VL VI EX) as (_ & HX).
  assert (HSx : forall i j, (i <= j < n)%nat -> exists x, cell n A i j = Some x /\ vf x = true /\ sf_finite x = true).
  { intros i j Hij. destruct (FS i j Hij) as (x & Ex & Fx). exists x. split; [exact Ex|]. split; [|exact Fx]. unfold all_in_format in FA. rewrite Forall_forall in FA. apply FA. exact (nth_error_In _ _ Ex). }
  destruct (invert_cells n (cell n A) (cell n L) (cell n X) sig lam Hn HSx Hsig Heig HR (or_introl HB) HX) as (_ & _ & FX & AX).
  exists L, X. split; [exact EL|]. split; [exact EX|]. split; [|split].
  - intros i j Hi Hj. destruct (FX i j Hi Hj) as (v & Ev & _ & Fv & _). eauto.
  - intros i j Hi Hj. destruct (FX i j Hi Hj) as (v & Ev & _ & _ & Bv). unfold rcell. rewrite Ev. exact Bv.
  - intros W IW i j Hi Hj. pose proof (AX (upper_sym n A) W 0) as Q. rewrite Rplus_0_l in Q. apply Q; auto.
    + intros p q _ _. unfold upper_sym. rewrite Nat.min_comm, Nat.max_comm. reflexivity.
    + lra.
    + intros p q Hp Hq. change (sa (cell n A) p q) with (upper_sym n A p q). unfold Rminus. rewrite Rplus_opp_r, Rabs_R0. lra.
Qed.
End Invert.
