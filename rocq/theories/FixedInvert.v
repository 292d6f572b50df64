(** * Inverting a well-conditioned fixed-point matrix *)
From Coq Require Import ZArith QArith Qabs Reals Qreals Lia Lra Psatz.
From Verif Require Import Prelude Spec SpecBits SpecDefined Matrix Filter SpecFilter Kernels FixedNum SpecFixed SpecFixedRange SpecFixedFactor SpecReal SpecSolve SpecFixedSolve SpecFixedInv
  NumSim BitsProof Chol Inv Defined FixedProof FixedRange FixedScalar FixedChol FloatErr FloatPredict FloatForward FloatRange RealSchur RealTri RealInverse FloatSolvable FloatInv RealSubst FixedSolve FixedInv.
Open Scope R_scope.

Section Invert.
Variables (bits frac : Z).
Hypothesis Hf : (0 <= frac)%Z.
Notation NC := (fx_num bits frac true true).
Notation NU := (unlimited frac).
Notation q o := (Q2R (match o with Some z => fval frac z | None => 0%Q end)).

(** on cells: the rows of the factor *)
Lemma factor_rows n (S L : nat -> nat -> option Z) (sig lam : R) : (1 <= n)%nat ->
  (forall i, (i < n)%nat -> q (S i i) <= sig) -> eig_above n (sa frac S) lam -> fx_ch_ready bits frac n sig lam -> b_factor NU n S L ->
  0 <= sig /\ (forall i k, (i < k < n)%nat -> q (L i k) = 0) /\ (forall i, (i < n)%nat -> 0 < q (L i i) /\ lam / 2 <= q (L i i) * q (L i i)) /\
  (forall i, (i < n)%nat -> rsum n (fun k => q (L i k) * q (L i k)) <= fx_tau frac n sig) /\
  (forall i j, (i < n)%nat -> (j < n)%nat -> Rabs (sa frac S i j - rsum n (fun k => q (L i k) * q (L j k))) <= fx_eps frac n sig) /\
  (forall v, lam / 2 * rsum n (fun k => v k * v k) <= rsum n (fun p => rsum n (fun k => q (L k p) * v k) * rsum n (fun k => q (L k p) * v k))).
Proof.
  intros Hn Hsig Heig HR (HB & HZ). destruct (have_cols bits frac Hf n S L sig lam Hn Hsig Heig HR n (le_n n) HB) as (C1 & C2 & C3 & _).
  assert (S0 : 0 < sig) by (apply (sig_pos (fx_w frac) n (sa frac S) sig lam Hn (sa_sym frac S) (sa_sig frac n S sig Hsig) Heig (HR' bits frac n sig lam HR))).
  assert (Z : forall i k, (i < k < n)%nat -> q (L i k) = 0). { intros i k Hk. rewrite (HZ i k Hk). apply (v_zero frac Hf). }
  assert (EQ : forall i j, (i < n)%nat -> (j < n)%nat -> Rabs (sa frac S i j - rsum n (fun k => q (L i k) * q (L j k))) <= fx_eps frac n sig).
  { assert (G : forall i j, (i <= j < n)%nat -> Rabs (sa frac S i j - rsum n (fun k => q (L i k) * q (L j k))) <= fx_eps frac n sig).
    { intros i j Hij. rewrite (rsum_trunc (Datatypes.S i) n) by (first [lia|intros p Hp; rewrite Z by lia; ring]). apply (C3 i j); lia. }
    intros i j Hi Hj. destruct (Nat.le_ge_cases i j); [apply G; lia|]. rewrite (sa_sym frac S i j).
    rewrite (rsum_ext n (fun k => q (L i k) * q (L j k)) (fun k => q (L j k) * q (L i k))) by (intros; ring). apply G. lia. }
  split; [lra|]. split; [exact Z|]. split; [exact C1|]. split.
  { intros i Hi. rewrite (rsum_trunc (Datatypes.S i) n) by (first [lia|intros p Hp; rewrite Z by lia; ring]). apply (C2 i Hi). }
  split; [exact EQ|]. intros x. pose proof (Heig x) as H1.
  assert (He : 0 <= fx_eps frac n sig) by (eapply Rle_trans; [apply Rabs_pos|apply (EQ 0%nat 0%nat); lia]).
  assert (EQ' : forall i j, (i < n)%nat -> (j < n)%nat -> Rabs (rsum n (fun k => q (L i k) * q (L j k)) - sa frac S i j) <= fx_eps frac n sig) by (intros i j Hi Hj; rewrite Rabs_minus_sym; apply EQ; assumption).
  pose proof (quad_near n _ (sa frac S) _ x He EQ') as Q. rewrite quad_square in Q. cbv beta in Q.
  pose proof (rsum_sq_abs n x) as X0. destruct HR as (R1 & R2 & _). set (x2 := rsum n (fun k => x k * x k)) in *. pose proof (pos_INR n).
  assert (INR n * fx_eps frac n sig * x2 <= lam / 2 * x2) by (apply Rmult_le_compat_r; [exact X0|nra]). lra.
Qed.

Lemma invert_cells n (S L X : nat -> nat -> option Z) (sig lam : R) : (1 <= n)%nat ->
  (forall i, (i < n)%nat -> q (S i i) <= sig) -> eig_above n (sa frac S) lam -> fx_inv_ready bits frac n sig lam -> b_factor NU n S L ->
  b_inverse NU n L X -> defined n n X ->
  b_inverse NC n L X /\
  forall (a W : nat -> nat -> R) d, (forall i j, (i < n)%nat -> (j < n)%nat -> a i j = a j i) -> eig_above n a lam -> inverse_of n a W -> 0 <= d ->
    (forall i j, (i < n)%nat -> (j < n)%nat -> Rabs (a i j - sa frac S i j) <= d) ->
    forall i j, (i < n)%nat -> (j < n)%nat -> Rabs (q (X i j) - W i j) <= fx_inv_err frac n sig lam (d + fx_eps frac n sig).
Proof.
  intros Hn Hsig Heig HR HB (Y & HY) DX. destruct (factor_rows n S L sig lam Hn Hsig Heig (proj1 HR) HB) as (S0 & Z & C1 & C2 & C3 & C4).
  split; [exact (inv_fits bits frac Hf n L X sig lam Hn HR S0 Z C1 C2 C4 Y HY DX)|].
  intros a W d Sa Ea IW Hd0 Hd i j Hi Hj.
  assert (He : 0 <= fx_eps frac n sig) by (eapply Rle_trans; [apply Rabs_pos|apply (C3 0%nat 0%nat); lia]).
  apply (inv_near bits frac Hf n L X sig lam Hn HR S0 Z C1 C2 C4 Y HY DX a W); auto; [lra|].
  intros p p' Hp Hp'. replace (a p p' - rsum n (fun k => q (L p k) * q (L p' k))) with ((a p p' - sa frac S p p') + (sa frac S p p' - rsum n (fun k => q (L p k) * q (L p' k)))) by ring.
  eapply Rle_trans; [apply Rabs_triang|]. apply Rplus_le_compat; [apply Hd|apply C3]; assumption.
Qed.

Variable c : cfg.
Theorem fx_inverse n (A inv0 : list Z) (sig lam : R) : (1 <= n)%nat -> valid c n n A -> valid c n n inv0 ->
  (forall i, (i < n)%nat -> fcell frac n A i i <= sig) -> eig_above n (fx_upper_sym frac n A) lam -> fx_inv_ready bits frac n sig lam ->
  exists L X, (forall oc da, cholesky_decompose_lower c (fx_num bits frac oc da) n n A = Ok (true, L) /\ invert_l_cholesky c (fx_num bits frac oc da) n L inv0 = Ok X) /\
    forall W, inverse_of n (fx_upper_sym frac n A) W -> forall i j, (i < n)%nat -> (j < n)%nat -> Rabs (fcell frac n X i j - W i j) <= fx_inv_err frac n sig lam (fx_eps frac n sig).
Proof.
  intros Hn VA VI Hsig Heig HR. destruct (fx_accepts c bits frac Hf n A sig lam Hn VA Hsig Heig (proj1 HR)) as (L & EL & _).
  assert (EU : cholesky_decompose_lower c NU n n A = Ok (true, L)) by (exact (nsim_ok _ _ _ (nsim_cholesky c NC NU (fx_unlimited bits frac) n n A) (EL true true))).
  destruct (cholesky_bits c NU n A true L Hn VA EU) as (STL & HB).
  assert (VL : valid c n n L) by (apply (valid_length c n n A); [exact VA|apply STL]).
  destruct (factor_rows n (cell n A) (cell n L) sig lam Hn Hsig Heig (proj1 HR) HB) as (_ & _ & C1 & _).
  pose proof (invert_spec c NU n L inv0 Hn VL VI) as IS. destruct (invert_l_cholesky c NU n L inv0) as [X0|er] eqn:EX.
  2:{ exfalso. destruct IS as (_ & NT). apply NT. split; [apply unlimited_total, Hf|]. intros i x Hi Ex. destruct (C1 i Hi) as (D & _). rewrite Ex in D. cbn.
      destruct (Z.eqb_spec x 0) as [->|]; [|discriminate]. rewrite (v_zero frac Hf) in D. lra. }
  destruct (invert_bits c NU n L inv0 X0 Hn VL VI EX) as (STX & HX).
  assert (VX : valid c n n X0) by (apply (valid_length c n n inv0); [exact VI|apply STX]).
  assert (DX : defined n n (cell n X0)). { intros i j Hi Hj. destruct (Kernels.cell_some c n n X0 i j VX Hi Hj) as (x & Ex & _). rewrite Ex. discriminate. }
  destruct (invert_cells n (cell n A) (cell n L) (cell n X0) sig lam Hn Hsig Heig HR HB HX DX) as (FX & AX).
  destruct (invert_complete c NC n L inv0 (cell n L) (cell n X0) Hn VL VI (fun _ _ _ _ => eq_refl) FX DX) as (X & E & _ & CX).
  exists L, X. split.
  - intros oc da. split; [apply EL|]. exact (nsim_ok _ _ _ (nsim_invert c NC _ (fx_refines bits frac oc da) n L inv0) E).
  - intros W IW i j Hi Hj. unfold fcell, qcell. rewrite (CX i j Hi Hj). pose proof (AX (fx_upper_sym frac n A) W 0) as Q. rewrite Rplus_0_l in Q. apply Q; auto.
    + intros p p' _ _. unfold fx_upper_sym. rewrite Nat.min_comm, Nat.max_comm. reflexivity.
    + lra.
    + intros p p' Hp Hp'. change (sa frac (cell n A) p p') with (fx_upper_sym frac n A p p'). unfold Rminus. rewrite Rplus_opp_r, Rabs_R0. lra.
Qed.
End Invert.
