(** * Corrections with several measured components stay finite and accurate *)
From Coq Require Import ZArith Reals Lia Lra Psatz.
From Flocq Require Import Core BinarySingleNaN.
From Verif Require Import Prelude Spec SpecBits Matrix Filter SpecFilter Kernels FilterGen FilterTwo HistGen FloatNum SpecFloats SpecReal SpecRange SpecSolve SpecCorrect FloatGen FloatFlocq FloatOps FloatErr FloatInt FloatPredict FloatChol FloatFmt FloatUpdate FloatFactor FloatGain FloatRange FloatForward FloatScalar RealSchur BitsProof FloatSolve FloatSolvable RealTri FloatInv FloatInvert.
Import SpecFloat.
Open Scope R_scope.

Lemma rsum_top K f B : (forall k, (k < K)%nat -> f k <= B) -> rsum K f <= INR K * B.
Proof. intros H. rewrite <- rsum_const. apply rsum_le. exact H. Qed.
(** sum |f||g| with |f| summing to F and |g| at most G *)
Lemma rsum_row K f g F G : rsum K (fun l => Rabs (f l)) <= F -> (forall l, (l < K)%nat -> Rabs (g l) <= G) -> (1 <= K)%nat -> rsum K (fun l => Rabs (f l) * Rabs (g l)) <= F * G.
Proof.
  intros HF HG HK. assert (0 <= G) by (eapply Rle_trans; [apply Rabs_pos|apply (HG 0%nat); lia]).
  apply Rle_trans with (rsum K (fun l => Rabs (f l)) * G).
  - rewrite rsum_mult_r. apply rsum_le. intros l Hl. apply Rmult_le_compat_l; [apply Rabs_pos|apply HG, Hl].
  - apply Rmult_le_compat_r; assumption.
Qed.
Lemma rsum_col K f g F G : (forall l, (l < K)%nat -> Rabs (f l) <= F) -> rsum K (fun l => Rabs (g l)) <= G -> (1 <= K)%nat -> rsum K (fun l => Rabs (f l) * Rabs (g l)) <= F * G.
Proof.
  intros HF HG HK. rewrite (rsum_ext K _ (fun l => Rabs (g l) * Rabs (f l))) by (intros; ring). rewrite (Rmult_comm F). apply rsum_row; assumption.
Qed.
(** the inverse of a matrix with eigenvalues above lam has entries at most 1 / lam *)
Lemma inverse_small n (a W : nat -> nat -> R) lam : 0 < lam -> eig_above n a lam -> inverse_of n a W -> forall i j, (i < n)%nat -> (j < n)%nat -> Rabs (W i j) <= / lam.
Proof.
  intros Hl Ea IW i j Hi Hj. set (w := fun k => W k j). set (w2 := rsum n (fun k => w k * w k)). assert (W2 : 0 <= w2) by apply rsum_sq_abs. set (z := / lam). assert (Hz : 0 < z) by (apply Rinv_0_lt_compat, Hl).
  assert (WB : w2 <= z * z).
  { pose proof (Ea w) as Q. fold w2 in Q. unfold quad in Q.
    rewrite (rsum_ext n _ (fun p => if Nat.eqb p j then w p else 0)) in Q.
    2:{ intros p Hp. rewrite (rsum_ext n _ (fun k => w p * (a p k * w k))) by (intros; ring). rewrite rsum_scal. unfold w at 2. rewrite IW by lia. destruct (Nat.eqb p j); ring. }
    rewrite (rsum_one n _ j) in Q by (first [lia|intros p Hp Hne; apply Nat.eqb_neq in Hne; rewrite Hne; reflexivity]). rewrite Nat.eqb_refl in Q.
    pose proof (one_sq n w j ltac:(lia)) as O. fold w2 in O.
    assert (Q2 : (lam * w2) * (lam * w2) <= w2). { eapply Rle_trans; [|exact O]. assert (0 <= lam * w2) by nra. apply Rmult_le_compat; lra. }
    assert (Ez : lam * z = 1) by (unfold z; field; lra).
    destruct (Rle_lt_or_eq_dec 0 w2 W2) as [Hp|He0]; [|nra].
    assert (lam * lam * w2 <= 1). { apply Rmult_le_reg_r with w2; [exact Hp|]. nra. }
    replace w2 with ((z * z) * (lam * lam * w2)) by (unfold z; field; lra). nra. }
  pose proof (one_sq n w i Hi) as O. fold w2 in O. change (W i j) with (w i). 
  apply Rsqr_incr_0_var; [|lra]. rewrite <- Rsqr_abs. unfold Rsqr. lra.
Qed.

Section Correct.
Variables (c : cfg) (prec emax : Z) (sz : bool).
Hypothesis HF : format_ok prec emax.
Hypothesis H4 : (4 <= emax)%Z.
Notation NN := (sf_num prec emax sz).
#[local] Instance hprec : Prec_gt_0 prec. Proof. unfold Prec_gt_0. destruct HF. lia. Qed.
#[local] Instance hmax : Prec_lt_emax prec emax. Proof. apply HF. Qed.
Notation vf := (valid_binary prec emax).
Notation u := (uro prec). Notation e := (eta prec emax).

Lemma vec_small K q f g r Q A : vec_bound prec emax K q f g r -> sf_finite r = true -> Rabs q <= Q -> rsum K (fun k => Rabs (f k) * Rabs (g k)) <= A ->
  Rabs (val r - (q + rsum K (fun k => f k * g k))) <= ((1 + u) ^ (K + 1) - 1) * (Q + A) + (1 + u) ^ (K + 1) * e * INR K /\
  Rabs (val r) <= (1 + u) ^ (K + 1) * (Q + A + INR K * e).
Proof.
  intros (_ & B) F HQ HA. specialize (B F). cbv zeta in B. pose proof (uro_pos prec) as Hu. pose proof (pow_R1_Rle (1 + u) (K + 1) ltac:(lra)) as Hq. set (w := (1 + u) ^ (K + 1)) in *.
  set (s := q + rsum K (fun k => f k * g k)) in *.
  assert (E1 : Rabs (val r - s) <= (w - 1) * (Q + A) + w * e * INR K) by (eapply Rle_trans; [exact B|]; apply Rplus_le_compat_r, Rmult_le_compat_l; lra).
  split; [exact E1|]. replace (val r) with ((val r - s) + s) by ring. eapply Rle_trans; [apply Rabs_triang|].
  assert (Rabs s <= Q + A). { unfold s. eapply Rle_trans; [apply Rabs_triang|]. apply Rplus_le_compat; [exact HQ|]. eapply Rle_trans; [apply rsum_abs|]. eapply Rle_trans; [|exact HA]. right. apply rsum_ext. intros; apply Rabs_mult. }
  lra.
Qed.
Lemma mat_small K1 K2 q s t a r Q A B : mat_bound prec emax K1 K2 q s t a r -> sf_finite r = true -> Rabs q <= Q ->
  rsum K2 (fun k => rsum K1 (fun l => Rabs (s k l) * Rabs (t k l)) * Rabs (a k)) <= A -> rsum K2 (fun k => Rabs (a k)) <= B ->
  Rabs (val r - (q + rsum K2 (fun k => rsum K1 (fun l => s k l * t k l) * a k))) <= ((1 + u) ^ (K1 + K2 + 1) - 1) * (Q + A) + (1 + u) ^ (K1 + K2 + 1) * e * (INR K1 * B + INR K2) /\
  Rabs (val r) <= (1 + u) ^ (K1 + K2 + 1) * (Q + A + (INR K1 * B + INR K2) * e).
Proof.
  intros (_ & D) F HQ HA HB. specialize (D F). cbv zeta in D. pose proof (uro_pos prec) as Hu. pose proof (eta_pos prec emax) as He. pose proof (pos_INR K1) as H1.
  pose proof (pow_R1_Rle (1 + u) (K1 + K2 + 1) ltac:(lra)) as Hq. set (w := (1 + u) ^ (K1 + K2 + 1)) in *.
  set (x := q + rsum K2 (fun k => rsum K1 (fun l => s k l * t k l) * a k)) in *.
  assert (E1 : Rabs (val r - x) <= (w - 1) * (Q + A) + w * e * (INR K1 * B + INR K2)).
  { eapply Rle_trans; [exact D|]. apply Rplus_le_compat; [apply Rmult_le_compat_l; lra|]. apply Rmult_le_compat_l; [apply Rmult_le_pos; lra|]. apply Rplus_le_compat_r, Rmult_le_compat_l; assumption. }
  split; [exact E1|]. replace (val r) with ((val r - x) + x) by ring. eapply Rle_trans; [apply Rabs_triang|].
  assert (Rabs x <= Q + A).
  { unfold x. eapply Rle_trans; [apply Rabs_triang|]. apply Rplus_le_compat; [exact HQ|]. eapply Rle_trans; [apply rsum_abs|]. eapply Rle_trans; [|exact HA]. apply rsum_le. intros k Hk.
    rewrite Rabs_mult. apply Rmult_le_compat_r; [apply Rabs_pos|]. eapply Rle_trans; [apply rsum_abs|]. right. apply rsum_ext. intros; apply Rabs_mult. }
  lra.
Qed.
Lemma vec_room_small K q f g Q A : Rabs q <= Q -> rsum K (fun k => Rabs (f k) * Rabs (g k)) <= A -> (1 + u) ^ (K + 1) * (Q + A + INR K * e) < too_big emax -> vec_room prec emax K q f g.
Proof.
  intros HQ HA H. unfold vec_room. eapply Rle_lt_trans; [|exact H]. pose proof (uro_pos prec) as Hu. apply Rmult_le_compat_l; [apply pow_le; lra|]. lra.
Qed.
Lemma mat_room_small K1 K2 q s t a Q A B C : Rabs q <= Q -> (forall k, (k < K2)%nat -> rsum K1 (fun l => Rabs (s k l) * Rabs (t k l)) <= C) ->
  rsum K2 (fun k => rsum K1 (fun l => Rabs (s k l) * Rabs (t k l)) * Rabs (a k)) <= A -> rsum K2 (fun k => Rabs (a k)) <= B ->
  (1 + u) ^ K1 * (C + INR K1 * e) < too_big emax -> (1 + u) ^ (K1 + K2 + 1) * (Q + A + (INR K1 * B + INR K2) * e) < too_big emax -> mat_room prec emax K1 K2 q s t a.
Proof.
  intros HQ HC HA HB HR1 HR2. pose proof (uro_pos prec) as Hu. pose proof (eta_pos prec emax) as He. pose proof (pos_INR K1) as H1. split.
  - intros k Hk. unfold cell_room. eapply Rle_lt_trans; [|exact HR1]. apply Rmult_le_compat_l; [apply pow_le; lra|]. apply Rplus_le_compat_r, HC, Hk.
  - eapply Rle_lt_trans; [|exact HR2]. apply Rmult_le_compat_l; [apply pow_le; lra|]. assert (INR K1 * rsum K2 (fun k => Rabs (a k)) <= INR K1 * B) by (apply Rmult_le_compat_l; assumption).
    assert ((INR K1 * rsum K2 (fun k => Rabs (a k)) + INR K2) * e <= (INR K1 * B + INR K2) * e) by (apply Rmult_le_compat_r; lra). lra.
Qed.

Lemma correct_accurate n m (o : observation spec_float) (f : kalman spec_float) (D : corr_data) : (1 <= n)%nat -> (1 <= m)%nat -> ob_valid c n m o -> kf_valid c n f ->
  kf_format prec emax f -> all_in_format prec emax (kf_px f) -> all_in_format prec emax (kf_tP f) -> ob_format prec emax o ->
  fin_matrix n 1 (kf_x f) -> fin_matrix n n (kf_P f) -> fin_matrix m n (ob_H o) -> fin_matrix m 1 (ob_z o) -> fin_matrix m m (ob_R o) ->
  let H := rcell n (ob_H o) in let P := rcell n (kf_P f) in let Rm := rcell m (ob_R o) in let z := fun i => rcell 1 (ob_z o) i 0 in let x := fun i => rcell 1 (kf_x f) i 0 in
  within prec emax n m D H P Rm x z -> corr_ready prec emax n m D ->
  exists o' f', correct c NN n m o f = Ok (o', f') /\ fin_matrix m 1 (ob_y o') /\ fin_matrix m m (ob_Sinv o') /\ fin_matrix n m (ob_K o') /\ (forall i j, (i < n)%nat -> (j < m)%nat -> Rabs (rcell m (ob_K o') i j) <= k_top prec emax n m D) /\
    fin_matrix n 1 (kf_x f') /\ fin_matrix n n (kf_P f') /\
    forall W, inverse_of m (upper_of (inn_cov n H P Rm)) W ->
      let K := gain_of n m H P W in let y := innov_of n z H x in
      (forall i j, (i < n)%nat -> (j < m)%nat -> Rabs (rcell m (ob_K o') i j - K i j) <= k_err prec emax n m D) /\
      (forall i, (i < n)%nat -> Rabs (rcell 1 (kf_x f') i 0 - corr_x m K y x i) <= x_err prec emax n m D) /\
      (forall i j, (i < n)%nat -> (j < n)%nat -> Rabs (rcell n (kf_P f') i j - corr_P n m K H P i j) <= P_err prec emax n m D).
Proof.
  intros Hn Hm Ho Hf Ff F1 F2 Fo Ix IP IH Iz IR H P Rm z x (BH & BP0 & BR & BX0 & BZ & Heig) (RI & RS & RC & RY & RK & RX & RP).
  destruct (correct_fin c prec emax sz HF n m o f Hn Hm Ho Hf Ff F1 F2 Fo Ix IP IH Iz) as (o' & f' & E & FY & FK0 & FX & FP'). exists o', f'. split; [exact E|].
  destruct (correct_err c prec emax sz HF n m o f Hn Hm Ho Hf Ff F1 F2 Fo) as (o2 & f2 & E2 & BY & BK & BX & BP). rewrite E in E2. injection E2 as <- <-.
  destruct (correct_bits' spec_float c NN n m o o' f f' Hn Hm Ho Hf E) as (_ & HU). destruct HU as (Sm & HS & HL & HI & _ & _ & _).
  destruct Hf as (VA & (Vx & _) & (VP & _) & _). destruct Ho as ((VH & _) & (Vz & _) & (VR & _) & _).
  destruct Fo as (FH & Fz & FR & _). destruct Ff as (FA & Fx & FP & FQ).
  pose proof (u_small prec emax HF) as Hu. pose proof (eta_pos prec emax) as Heta. pose proof (pos_INR n) as Nn. pose proof (pos_INR m) as Nm.
  set (rho := cd_rho D) in *. set (p := cd_p D) in *. set (r := cd_r D) in *. set (X := cd_x D) in *. set (Z := cd_z D) in *. set (lam := cd_lam D) in *.
  assert (Prho : 0 <= rho) by (eapply Rle_trans; [|apply (BH 0%nat); lia]; apply rsum_pos; intros; apply Rabs_pos).
  assert (Pp : 0 <= p) by (eapply Rle_trans; [apply Rabs_pos|apply (BP0 0%nat 0%nat); lia]).
  assert (Pr : 0 <= r) by (eapply Rle_trans; [apply Rabs_pos|apply (BR 0%nat 0%nat); lia]).
  assert (PX : 0 <= X) by (eapply Rle_trans; [apply Rabs_pos|apply (BX0 0%nat); lia]).
  assert (PZ : 0 <= Z) by (eapply Rle_trans; [apply Rabs_pos|apply (BZ 0%nat); lia]).
  assert (Plam : 0 < lam) by apply RI. assert (Pil : 0 < / lam) by (apply Rinv_0_lt_compat, Plam).
  assert (HP_ : forall i k, (i < m)%nat -> (k < n)%nat -> rsum n (fun l => Rabs (H i l) * Rabs (P l k)) <= rho * p) by (intros i k Hi Hk; apply rsum_row; auto).
  assert (PH_ : forall i k, (i < n)%nat -> (k < m)%nat -> rsum n (fun l => Rabs (P i l) * Rabs (H k l)) <= p * rho) by (intros i k Hi Hk; apply rsum_col; auto).
  (* the innovation covariance *)
  assert (GS : forall i j, (i < m)%nat -> (j < m)%nat -> exists s, Sm i j = Some s /\ vf s = true /\ sf_finite s = true /\
     Rabs (val s - inn_cov n H P Rm i j) <= s_err prec emax n D /\ Rabs (val s) <= s_top prec emax n D).
  { intros i j Hi Hj. destruct (one_given prec emax m m (ob_R o) i j FR VR Hi Hj) as (rr & Err & Vrr).
    destruct (IR i j Hi Hj) as (rr' & Err' & Frr). assert (rr' = rr) by congruence. subst rr'.
    assert (Rr : Rm i j = val rr) by (unfold Rm, rcell; rewrite Err; reflexivity).
    destruct (mat_err_r prec emax sz HF n n rr (fun k l => cell n (ob_H o) i l) (fun k l => cell n (kf_P f) l k) (fun k => cell n (ob_H o) j k) Vrr) as (s & Es & Bs).
    { intros k Hk. apply (row_given prec emax m); auto. } { intros k Hk. apply (col_given prec emax n); auto. } { apply (row_given prec emax m); auto. }
    exists s. split; [rewrite (HS i j Hi Hj), Err; unfold b_prodt, b_prod; exact Es|].
    assert (A1 : rsum n (fun k => rsum n (fun l => Rabs (H i l) * Rabs (P l k)) * Rabs (H j k)) <= rho * p * rho).
    { apply Rle_trans with (rho * p * rsum n (fun k => Rabs (H j k))); [|apply Rmult_le_compat_l; [apply Rmult_le_pos; assumption|apply BH, Hj]].
      rewrite <- rsum_scal. apply rsum_le. intros k Hk. apply Rmult_le_compat_r; [apply Rabs_pos|apply HP_; assumption]. }
    assert (Fs : sf_finite s = true).
    { apply (mat_fin_r prec emax sz HF n n rr (fun k l => cell n (ob_H o) i l) (fun k l => cell n (kf_P f) l k) (fun k => cell n (ob_H o) j k)); auto.
      + intros k Hk. apply (row_given prec emax m); auto. + intros k Hk. apply (col_given prec emax n); auto. + apply (row_given prec emax m); auto.
      + intros k Hk. apply (row_fin m); auto. + intros k Hk. apply (col_fin n); auto. + apply (row_fin m); auto.
      + rewrite <- Rr. apply (mat_room_small n n (Rm i j) (fun _ => H i) (fun k l => P l k) (H j) r (rho * p * rho) rho (rho * p)); auto. }
    destruct (mat_small n n (val rr) (fun _ => H i) (fun k l => P l k) (H j) s r (rho * p * rho) rho Bs Fs) as (Q1 & Q2); [rewrite <- Rr; auto|exact A1|apply BH, Hj|].
    split; [apply Bs|]. split; [exact Fs|]. split; [|exact Q2]. unfold inn_cov. rewrite Rr. exact Q1. }
  assert (PE : 0 <= s_err prec emax n D) by (destruct (GS 0%nat 0%nat ltac:(lia) ltac:(lia)) as (s & _ & _ & _ & Q & _); eapply Rle_trans; [apply Rabs_pos|exact Q]).
  assert (SD : forall i j, (i < m)%nat -> (j < m)%nat -> Rabs (upper_of (inn_cov n H P Rm) i j - sa Sm i j) <= s_err prec emax n D).
  { intros i j Hi Hj. unfold upper_of, sa. destruct (GS (Nat.min i j) (Nat.max i j) ltac:(lia) ltac:(lia)) as (s & Es & _ & _ & Q & _). rewrite Es. rewrite Rabs_minus_sym. exact Q. }
  assert (EA : eig_above m (upper_of (inn_cov n H P Rm)) lam).
  { intros v. eapply Rle_trans; [|apply Heig]. apply Rmult_le_compat_r; [apply rsum_sq_abs|]. assert (0 <= INR m * s_err prec emax n D) by (apply Rmult_le_pos; assumption). fold lam. lra. }
  assert (ES : eig_above m (sa Sm) lam).
  { intros v. assert (SD' : forall i j, (i < m)%nat -> (j < m)%nat -> Rabs (sa Sm i j - upper_of (inn_cov n H P Rm) i j) <= s_err prec emax n D) by (intros i j Hi Hj; rewrite Rabs_minus_sym; apply SD; assumption).
    pose proof (quad_near m (sa Sm) _ _ v PE SD') as Q. pose proof (Heig v) as Q2. fold lam in Q2. lra. }
  destruct (invert_cells prec emax sz HF H4 m Sm (cell m (ob_S o')) (cell m (ob_Sinv o')) (s_top prec emax n D) lam Hm) as (_ & _ & FSi & ASi); auto.
  { intros i j Hij. destruct (GS i j ltac:(lia) ltac:(lia)) as (s & Es & Vs & Fs & _). eauto. }
  { intros i Hi. destruct (GS i i Hi Hi) as (s & Es & _ & _ & _ & Q). rewrite Es. eapply Rle_trans; [apply Rle_abs|exact Q]. }
  assert (ISi : fin_matrix m m (ob_Sinv o')) by (intros i j Hi Hj; destruct (FSi i j Hi Hj) as (v & Ev & _ & Fv & _); eauto).
  assert (BSi : forall i j, (i < m)%nat -> (j < m)%nat -> Rabs (rcell m (ob_Sinv o') i j) <= 5 / lam) by (intros i j Hi Hj; destruct (FSi i j Hi Hj) as (v & Ev & _ & _ & B); unfold rcell; rewrite Ev; exact B).
  (* the innovation *)
  assert (NY : forall i, (i < m)%nat -> exists v, cell 1 (ob_y o') i 0 = Some v /\ sf_finite v = true /\ Rabs (val v - innov_of n z H x i) <= y_err prec emax n D /\ Rabs (val v) <= y_top prec emax n D).
  { intros i Hi. assert (A : rsum n (fun l => Rabs (H i l) * Rabs (x l)) <= rho * X) by (apply rsum_row; auto).
    destruct (FY i Hi) as (v' & Ev' & Fv). { apply (vec_room_small n (z i) (H i) x Z (rho * X)); auto. }
    destruct (BY i Hi) as (v & Ev & Bv). assert (v' = v) by congruence. subst v'. exists v. split; [exact Ev|]. split; [exact Fv|].
    destruct (vec_small n (z i) (fun l => - H i l) x v Z (rho * X) Bv Fv) as (Q1 & Q2); auto.
    { eapply Rle_trans; [|exact A]. right. apply rsum_ext. intros. rewrite Rabs_Ropp. reflexivity. }
    split; [|exact Q2]. unfold innov_of. replace (z i - rsum n (fun l => H i l * x l)) with (z i + rsum n (fun l => - H i l * x l)); [exact Q1|].
    rewrite (rsum_ext n (fun l => - H i l * x l) (fun l => -1 * (H i l * x l))) by (intros; ring). rewrite rsum_scal. ring. }
  assert (IY : fin_matrix m 1 (ob_y o')) by (intros i j Hi Hj; destruct (NY i Hi) as (v & Ev & Fv & _); replace j with 0%nat by lia; eauto).
  assert (TY : forall i, (i < m)%nat -> Rabs (rcell 1 (ob_y o') i 0) <= y_top prec emax n D) by (intros i Hi; destruct (NY i Hi) as (v & Ev & _ & _ & B); unfold rcell; rewrite Ev; exact B).
  (* the gain *)
  assert (NK : forall i j, (i < n)%nat -> (j < m)%nat -> exists v, cell m (ob_K o') i j = Some v /\ sf_finite v = true /\
     Rabs (val v - rsum m (fun q => rsum n (fun l => P i l * H q l) * rcell m (ob_Sinv o') q j)) <= ((1 + u) ^ (n + m + 1) - 1) * (0 + k_sum m D) + (1 + u) ^ (n + m + 1) * e * (INR n * k_inv m D + INR m) /\
     Rabs (val v) <= k_top prec emax n m D).
  { intros i j Hi Hj.
    assert (A : rsum m (fun q => rsum n (fun l => Rabs (P i l) * Rabs (H q l)) * Rabs (rcell m (ob_Sinv o') q j)) <= k_sum m D).
    { apply rsum_top. intros q Hq. apply Rmult_le_compat; [apply rsum_pos; intros; apply Rmult_le_pos; apply Rabs_pos|apply Rabs_pos|apply PH_; assumption|apply BSi; assumption]. }
    assert (B : rsum m (fun q => Rabs (rcell m (ob_Sinv o') q j)) <= k_inv m D) by (apply rsum_top; intros q Hq; apply BSi; assumption).
    assert (R0 : Rabs 0 <= 0) by (rewrite Rabs_R0; lra).
    destruct (FK0 ISi i j Hi Hj) as (v' & Ev' & Fv).
    { apply (mat_room_small n m 0 (fun _ => P i) (fun q => H q) (fun q => rcell m (ob_Sinv o') q j) 0 (k_sum m D) (k_inv m D) (rho * p)); auto. intros k Hk. rewrite Rmult_comm. apply PH_; assumption. }
    destruct (BK i j Hi Hj) as (v & Ev & Bv). assert (v' = v) by congruence. subst v'. exists v. split; [exact Ev|]. split; [exact Fv|].
    destruct (mat_small n m 0 (fun _ => P i) (fun q => H q) (fun q => rcell m (ob_Sinv o') q j) v 0 (k_sum m D) (k_inv m D) Bv Fv R0 A B) as (Q1 & Q2).
    rewrite Rplus_0_l in Q1. split; [exact Q1|exact Q2]. }
  assert (IK : fin_matrix n m (ob_K o')) by (intros i j Hi Hj; destruct (NK i j Hi Hj) as (v & Ev & Fv & _); eauto).
  assert (TK : forall i j, (i < n)%nat -> (j < m)%nat -> Rabs (rcell m (ob_K o') i j) <= k_top prec emax n m D) by (intros i j Hi Hj; destruct (NK i j Hi Hj) as (v & Ev & _ & _ & B); unfold rcell; rewrite Ev; exact B).
  assert (PKT : 0 <= k_top prec emax n m D) by (eapply Rle_trans; [apply Rabs_pos|apply (TK 0%nat 0%nat); lia]).
  assert (PYT : 0 <= y_top prec emax n D) by (eapply Rle_trans; [apply Rabs_pos|apply (TY 0%nat); lia]).
  (* the state *)
  assert (NX : forall i, (i < n)%nat -> exists v, cell 1 (kf_x f') i 0 = Some v /\ sf_finite v = true /\
     Rabs (val v - (x i + rsum m (fun q => rcell m (ob_K o') i q * rcell 1 (ob_y o') q 0))) <= ((1 + u) ^ (m + 1) - 1) * (X + INR m * (k_top prec emax n m D * y_top prec emax n D)) + (1 + u) ^ (m + 1) * e * INR m).
  { intros i Hi. assert (A : rsum m (fun q => Rabs (rcell m (ob_K o') i q) * Rabs (rcell 1 (ob_y o') q 0)) <= INR m * (k_top prec emax n m D * y_top prec emax n D)).
    { apply rsum_top. intros q Hq. apply Rmult_le_compat; try apply Rabs_pos; [apply TK|apply TY]; assumption. }
    destruct (FX IY IK i Hi) as (v' & Ev' & Fv). { apply (vec_room_small m (x i) (fun q => rcell m (ob_K o') i q) (fun q => rcell 1 (ob_y o') q 0) X (INR m * (k_top prec emax n m D * y_top prec emax n D))); auto. }
    destruct (BX i Hi) as (v & Ev & Bv). assert (v' = v) by congruence. subst v'. exists v. split; [exact Ev|]. split; [exact Fv|].
    apply (vec_small m (x i) (fun q => rcell m (ob_K o') i q) (fun q => rcell 1 (ob_y o') q 0) v X _ Bv Fv); auto. }
  assert (NP : forall i j, (i < n)%nat -> (j < n)%nat -> exists v, cell n (kf_P f') i j = Some v /\ sf_finite v = true /\
     Rabs (val v - (P i j - rsum m (fun q => rcell m (ob_K o') i q * rsum n (fun l => H q l * P l j)))) <= ((1 + u) ^ (n + m + 1) - 1) * (p + INR m * (rho * p * k_top prec emax n m D)) + (1 + u) ^ (n + m + 1) * e * (INR n * (INR m * k_top prec emax n m D) + INR m)).
  { intros i j Hi Hj. 
    assert (A : forall g, (forall q, Rabs (g q) = Rabs (rcell m (ob_K o') i q)) -> rsum m (fun q => rsum n (fun l => Rabs (H q l) * Rabs (P l j)) * Rabs (g q)) <= INR m * (rho * p * k_top prec emax n m D)).
    { intros g Hg. apply rsum_top. intros q Hq. rewrite Hg. apply Rmult_le_compat; [apply rsum_pos; intros; apply Rmult_le_pos; apply Rabs_pos|apply Rabs_pos|apply HP_; assumption|apply TK; assumption]. }
    assert (B : forall g, (forall q, Rabs (g q) = Rabs (rcell m (ob_K o') i q)) -> rsum m (fun q => Rabs (g q)) <= INR m * k_top prec emax n m D) by (intros g Hg; apply rsum_top; intros q Hq; rewrite Hg; apply TK; assumption).
    destruct (FP' IK i j Hi Hj) as (v' & Ev' & Fv).
    { apply (mat_room_small n m (P i j) (fun q => H q) (fun _ l => P l j) (fun q => rcell m (ob_K o') i q) p (INR m * (rho * p * k_top prec emax n m D)) (INR m * k_top prec emax n m D) (rho * p)); auto. }
    destruct (BP i j Hi Hj) as (v & Ev & Bv). assert (v' = v) by congruence. subst v'. exists v. split; [exact Ev|]. split; [exact Fv|].
    destruct (mat_small n m (P i j) (fun q => H q) (fun _ l => P l j) (fun q => - rcell m (ob_K o') i q) v p (INR m * (rho * p * k_top prec emax n m D)) (INR m * k_top prec emax n m D) Bv Fv) as (Q1 & _); auto.
    { apply A. intros; apply Rabs_Ropp. } { apply B. intros; apply Rabs_Ropp. }
    replace (P i j - rsum m (fun q => rcell m (ob_K o') i q * rsum n (fun l => H q l * P l j))) with (P i j + rsum m (fun q => rsum n (fun l => H q l * P l j) * - rcell m (ob_K o') i q)); [exact Q1|].
    rewrite (rsum_ext m (fun q => rsum n (fun l => H q l * P l j) * - rcell m (ob_K o') i q) (fun q => -1 * (rcell m (ob_K o') i q * rsum n (fun l => H q l * P l j)))) by (intros; ring). rewrite rsum_scal. ring. }
  split; [exact IY|]. split; [exact ISi|]. split; [exact IK|]. split; [exact TK|].
  split. { intros i j Hi Hj. destruct (NX i Hi) as (v & Ev & Fv & _). replace j with 0%nat by lia. eauto. }
  split. { intros i j Hi Hj. destruct (NP i j Hi Hj) as (v & Ev & Fv & _). eauto. }
  (* against the exact update *)
  intros W IW K y.
  assert (SyA : forall i j, (i < m)%nat -> (j < m)%nat -> upper_of (inn_cov n H P Rm) i j = upper_of (inn_cov n H P Rm) j i) by (intros; unfold upper_of; rewrite Nat.min_comm, Nat.max_comm; reflexivity).
  assert (EW : forall i j, (i < m)%nat -> (j < m)%nat -> Rabs (rcell m (ob_Sinv o') i j - W i j) <= w_err prec emax n m D) by (intros i j Hi Hj; apply (ASi _ W _ SyA EA IW PE SD i j Hi Hj)).
  assert (SW : forall i j, (i < m)%nat -> (j < m)%nat -> Rabs (W i j) <= / lam) by (apply (inverse_small m _ W lam Plam EA IW)).
  assert (CPH : forall i q, (i < n)%nat -> (q < m)%nat -> Rabs (rsum n (fun l => P i l * H q l)) <= p * rho).
  { intros i q Hi Hq. eapply Rle_trans; [apply rsum_abs|]. eapply Rle_trans; [|apply (PH_ i q Hi Hq)]. right. apply rsum_ext. intros; apply Rabs_mult. }
  assert (CHP : forall q j, (q < m)%nat -> (j < n)%nat -> Rabs (rsum n (fun l => H q l * P l j)) <= rho * p).
  { intros q j Hq Hj. eapply Rle_trans; [apply rsum_abs|]. eapply Rle_trans; [|apply (HP_ q j Hq Hj)]. right. apply rsum_ext. intros; apply Rabs_mult. }
  assert (KE : forall i j, (i < n)%nat -> (j < m)%nat -> Rabs (rcell m (ob_K o') i j - K i j) <= k_err prec emax n m D).
  { intros i j Hi Hj. destruct (NK i j Hi Hj) as (v & Ev & _ & Q & _). unfold rcell at 1. rewrite Ev. unfold k_err, K, gain_of.
    replace (val v - rsum m (fun p0 => rsum n (fun l => P i l * H p0 l) * W p0 j)) with
      ((val v - rsum m (fun q => rsum n (fun l => P i l * H q l) * rcell m (ob_Sinv o') q j)) + (rsum m (fun q => rsum n (fun l => P i l * H q l) * rcell m (ob_Sinv o') q j) - rsum m (fun q => rsum n (fun l => P i l * H q l) * W q j))) by ring.
    eapply Rle_trans; [apply Rabs_triang|]. apply Rplus_le_compat; [exact Q|]. rewrite rsum_minus. eapply Rle_trans; [apply rsum_abs|]. apply rsum_top. intros q Hq.
    rewrite <- Rmult_minus_distr_l, Rabs_mult. apply Rmult_le_compat; try apply Rabs_pos; [apply CPH|apply EW]; assumption. }
  assert (KX : forall i j, (i < n)%nat -> (j < m)%nat -> Rabs (K i j) <= k_exact m D).
  { intros i j Hi Hj. unfold K, gain_of, k_exact. eapply Rle_trans; [apply rsum_abs|]. apply rsum_top. intros q Hq. rewrite Rabs_mult. apply Rmult_le_compat; try apply Rabs_pos; [apply CPH|apply SW]; assumption. }
  split; [exact KE|]. split.
  - intros i Hi. destruct (NX i Hi) as (v & Ev & _ & Q). unfold rcell at 1. rewrite Ev. unfold x_err, corr_x.
    replace (val v - (x i + rsum m (fun p0 => K i p0 * y p0))) with
      ((val v - (x i + rsum m (fun q => rcell m (ob_K o') i q * rcell 1 (ob_y o') q 0))) + (rsum m (fun q => rcell m (ob_K o') i q * rcell 1 (ob_y o') q 0) - rsum m (fun q => K i q * y q))) by ring.
    eapply Rle_trans; [apply Rabs_triang|]. apply Rplus_le_compat; [exact Q|]. rewrite rsum_minus. eapply Rle_trans; [apply rsum_abs|]. apply rsum_top. intros q Hq.
    replace (rcell m (ob_K o') i q * rcell 1 (ob_y o') q 0 - K i q * y q) with ((rcell m (ob_K o') i q - K i q) * rcell 1 (ob_y o') q 0 + K i q * (rcell 1 (ob_y o') q 0 - y q)) by ring.
    eapply Rle_trans; [apply Rabs_triang|]. rewrite !Rabs_mult. destruct (NY q Hq) as (w & Ew & _ & Qy & _).
    apply Rplus_le_compat; (apply Rmult_le_compat; try apply Rabs_pos); [apply KE|apply TY|apply KX|]; auto. unfold rcell. rewrite Ew. exact Qy.
  - intros i j Hi Hj. destruct (NP i j Hi Hj) as (v & Ev & _ & Q). unfold rcell at 1. rewrite Ev. unfold P_err, corr_P.
    replace (val v - (P i j - rsum m (fun p0 => K i p0 * rsum n (fun l => H p0 l * P l j)))) with
      ((val v - (P i j - rsum m (fun q => rcell m (ob_K o') i q * rsum n (fun l => H q l * P l j)))) + - (rsum m (fun q => rcell m (ob_K o') i q * rsum n (fun l => H q l * P l j)) - rsum m (fun q => K i q * rsum n (fun l => H q l * P l j)))) by ring.
    eapply Rle_trans; [apply Rabs_triang|]. rewrite Rabs_Ropp. apply Rplus_le_compat; [exact Q|]. rewrite rsum_minus. eapply Rle_trans; [apply rsum_abs|]. apply rsum_top. intros q Hq.
    rewrite <- Rmult_minus_distr_r, Rabs_mult. apply Rmult_le_compat; try apply Rabs_pos; [apply KE|apply CHP]; assumption.
Qed.
End Correct.
