(** * Corrections through a closure with several measured components, in floats *)
From Coq Require Import ZArith Reals Lia Lra Psatz.
From Flocq Require Import Core BinarySingleNaN.
From Verif Require Import Prelude Spec SpecBits Matrix Filter Extended SpecFilter SpecGen SpecParam Param Wp Kernels FilterGen FilterTwo HistTwo Track FloatNum SpecFloats SpecReal SpecRange SpecSolve SpecCorrect FloatGen FloatFlocq FloatOps FloatErr FloatInt FloatPredict FloatFmt FloatSelect BitsProof FloatUpdate FloatRange RealSchur FloatCorrect RealInverse FloatModerate.
Import SpecFloat.
Open Scope R_scope.

Section Nl.
Variables (c : cfg) (prec emax : Z) (sz : bool).
Hypothesis HF : format_ok prec emax.
Hypothesis H4 : (4 <= emax)%Z.
Notation NN := (sf_num prec emax sz).
Notation vf := (valid_binary prec emax).
Notation u := (uro prec). Notation e := (eta prec emax).

Lemma correct_nl_moderate n m h out (o : observation spec_float) (f : kalman spec_float) (B lam : R) : (1 <= n)%nat -> (1 <= m)%nat -> ob_valid c n m o -> kf_valid c n f ->
  kf_format prec emax f -> all_in_format prec emax (kf_px f) -> all_in_format prec emax (kf_tP f) -> ob_format prec emax o ->
  fin_matrix n 1 (kf_x f) -> fin_matrix n n (kf_P f) -> fin_matrix m n (ob_H o) -> fin_matrix m 1 (ob_z o) -> fin_matrix m m (ob_R o) ->
  let H := rcell n (ob_H o) in let P := rcell n (kf_P f) in let Rm := rcell m (ob_R o) in let z := fun i => rcell 1 (ob_z o) i 0 in let x := fun i => rcell 1 (kf_x f) i 0 in
  moderate prec emax n m B lam H P Rm x z ->
  closure_ok c NN m n h -> h (kf_x f) (ob_y o) = Ok out -> all_in_format prec emax out -> fin_matrix m 1 out ->
  (forall i, (i < m)%nat -> Rabs (z i - rcell 1 out i 0) <= B) ->
  exists o' f' W, correct_nonlinear c NN n m h o f = Ok (o', f') /\ fin_matrix n m (ob_K o') /\ fin_matrix n 1 (kf_x f') /\ fin_matrix n n (kf_P f') /\
    inverse_of m (upper_of (inn_cov n H P Rm)) W /\ let K := gain_of n m H P W in let err := 8192 * B ^ 11 * u / lam ^ 2 in
      (forall i j, (i < n)%nat -> (j < m)%nat -> Rabs (rcell m (ob_K o') i j - K i j) <= err) /\
      (forall i, (i < n)%nat -> Rabs (rcell 1 (kf_x f') i 0 - corr_x m K (fun q => z q - rcell 1 out q 0) x i) <= err) /\
      (forall i j, (i < n)%nat -> (j < n)%nat -> Rabs (rcell n (kf_P f') i j - corr_P n m K H P i j) <= err).
Proof.
  intros Hn Hm Ho Hf Ff F1 F2 Fo Ix IP IH Iz IR H P Rm z x M Hh Eh Fout Iout BZ.
  destruct (moderate_within prec emax HF H4 n m B lam H P Rm x z Hn Hm M) as (WI & CR).
  destruct M as (Bn & Bm & BH & BP & BR & BX & BZ0 & Heig & (HU & Hl1) & HT).
  assert (HB : 1 <= B) by (eapply Rle_trans; [|exact Bn]; change 1 with (INR 1); apply le_INR, Hn).
  assert (Hu0 : 0 <= u) by (left; apply uro_pos). assert (He0 : 0 <= e) by (left; apply eta_pos).
  assert (Hl0 : 0 < lam). { eapply Rlt_le_trans; [|exact HU]. pose proof (pow_R1_Rle B 5 HB). apply Rmult_lt_0_compat; [lra|]. unfold uro. apply bpow_gt_0. }
  set (D := mk_corr B B B B B lam) in *.
  destruct (correct_accurate c prec emax sz HF H4 n m o f D Hn Hm Ho Hf Ff F1 F2 Fo Ix IP IH Iz IR WI CR) as (o1 & f1 & E1 & _ & _ & IK1 & TK1 & _ & IP1 & A).
  destruct (correct_exact c prec emax sz HF H4 n m o f D Hn Hm Ho Hf Ff F1 F2 Fo Ix IP IH Iz IR WI CR) as (_ & _ & W & _ & _ & _ & _ & _ & _ & IW & _).
  destruct (A W IW) as (KE & _ & PE). clear A.
  assert (E : exists o' f', correct_nonlinear c NN n m h o f = Ok (o', f')).
  { pose proof (correct_nonlinear_wp c NN n m h o f Hn Hm Ho Hf Hh) as Q. destruct (correct_nonlinear c NN n m h o f) as [(o' & f')|er]; [eauto|]. cbn in Q. destruct Q as (_ & Q).
    destruct (Q (sf_never_panics prec emax sz)). }
  destruct E as (o' & f' & E). exists o', f', W. split; [exact E|].
  assert (Vout : valid c m 1 out).
  { pose proof (Hh (kf_x f) (ob_y o) ltac:(apply Hf) ltac:(apply Ho)) as Q. rewrite Eh in Q. exact Q. }
  (* the link *)
  assert (OC : ob_cov c n m o o) by (split; [exact Ho|split; [exact Ho|split; intros p0 Hp0; reflexivity]]).
  assert (KC : kf_cov c n f f) by (split; [exact Hf|split; [exact Hf|split; [|split]; intros p0 Hp0; reflexivity]]).
  pose proof (correct_both_cov c NN n m h o o f f Hn Hm Hh OC KC) as L. rewrite E1, E in L. cbn [rok] in L. destruct L as (_ & (_ & _ & _ & SP & _) & SK). cbn [fst snd] in SP, SK.
  assert (CK : forall i j, (i < n)%nat -> (j < m)%nat -> cell m (ob_K o') i j = cell m (ob_K o1) i j) by (intros i j Hi Hj; symmetry; apply SK; pose proof (row_bound n m i j Hi Hj); lia).
  assert (CP : forall i j, (i < n)%nat -> (j < n)%nat -> cell n (kf_P f') i j = cell n (kf_P f1) i j) by (intros i j Hi Hj; symmetry; apply SP; pose proof (row_bound n n i j Hi Hj); lia).
  assert (IK : fin_matrix n m (ob_K o')) by (intros i j Hi Hj; rewrite CK by assumption; apply IK1; assumption).
  split; [exact IK|].
  (* the innovation *)
  destruct (correct_nl_bits' spec_float c NN n m h o o' f f' Hn Hm Ho Hf) as ((out' & Eh' & HY) & HU'); [intros out0 E0; rewrite Eh in E0; injection E0 as <-; exact Vout|exact E|].
  rewrite Eh in Eh'. injection Eh' as <-. destruct HU' as (Sm & _ & _ & _ & _ & HX & _).
  destruct (correct_fmt c prec emax sz HF n m o o1 f f1 F1 F2 Ff Fo E1) as (Fo1 & _).
  assert (Hv1 : ob_valid c n m o1) by (pose proof (correct_wp c NN n m o f Hn Hm Ho Hf) as Q; rewrite E1 in Q; apply Q).
  destruct Hf as (VA & (Vx & _) & (VP & _) & _). destruct Ho as (_ & (Vz & _) & _). destruct Hv1 as (_ & _ & _ & _ & _ & (VK & _) & _). destruct Vout as (Vo & _).
  destruct Fo as (_ & Fz & _). destruct Fo1 as (_ & _ & _ & _ & _ & FK & _). destruct Ff as (_ & Fx & _).
  destruct CR as (RI & RS & RC & RY & RK & RX & RP).
  pose proof (pow_R1_Rle (1 + u) n ltac:(lra)) as Hw. pose proof (pos_INR n) as Nn. pose proof (pos_INR m) as Nm.
  assert (YT : (1 + u) * B <= y_top prec emax n D).
  { unfold y_top. cbn [D cd_z cd_rho cd_x]. rewrite pow_add, pow_1. rewrite (Rmult_comm _ (1 + u)), Rmult_assoc. apply Rmult_le_compat_l; [lra|].
    assert (0 <= INR n * e) by (apply Rmult_le_pos; assumption). assert (0 <= B * B) by nra. apply Rle_trans with (1 * (B + B * B + INR n * e)); [lra|]. apply Rmult_le_compat_r; lra. }
  assert (YE : u * B <= y_err prec emax n D).
  { unfold y_err. cbn [D cd_z cd_rho cd_x]. assert (1 + u <= (1 + u) ^ (n + 1)) by (rewrite pow_add, pow_1; nra).
    assert (0 <= (1 + u) ^ (n + 1) * e * INR n) by (apply Rmult_le_pos; [apply Rmult_le_pos; lra|assumption]). assert (0 <= B * B) by nra. 
    assert (u * (B + B * B) <= ((1 + u) ^ (n + 1) - 1) * (B + B * B)) by (apply Rmult_le_compat_r; lra). nra. }
  assert (NY : forall i, (i < m)%nat -> exists v, cell 1 (ob_y o') i 0 = Some v /\ vf v = true /\ sf_finite v = true /\ Rabs (val v - (z i - rcell 1 out i 0)) <= y_err prec emax n D /\ Rabs (val v) <= y_top prec emax n D).
  { intros i Hi. destruct (one_given prec emax m 1 (ob_z o) i 0 Fz Vz Hi ltac:(lia)) as (a & Ea & Va). destruct (one_given prec emax m 1 out i 0 Fout Vo Hi ltac:(lia)) as (b & Eb & Vb).
    destruct (Iz i 0%nat Hi ltac:(lia)) as (a' & Ea' & Fa). assert (a' = a) by congruence. subst a'. destruct (Iout i 0%nat Hi ltac:(lia)) as (b' & Eb' & Fb). assert (b' = b) by congruence. subst b'.
    pose proof (BZ i Hi) as BZi. unfold z, rcell in BZi |- *. rewrite Ea, Eb in *. change (oval (Some a)) with (val a) in *. change (oval (Some b)) with (val b) in *.
    assert (FF : sf_finite (SFsub prec emax a b) = true) by (apply (FloatSelect.sub_fin prec emax HF); auto; nra).
    exists (SFsub prec emax a b). split; [rewrite (HY i Hi), Ea, Eb; reflexivity|]. split; [apply vf_sub; auto; [destruct HF; unfold Prec_gt_0; lia|apply HF]|]. split; [exact FF|].
    destruct (sub_err_both prec emax ltac:(destruct HF; unfold Prec_gt_0; lia) ltac:(apply HF) a b Va Vb FF) as (Q & _). assert (u * Rabs (val a - val b) <= u * B) by (apply Rmult_le_compat_l; assumption).
    split; [lra|]. replace (val (SFsub prec emax a b)) with ((val (SFsub prec emax a b) - (val a - val b)) + (val a - val b)) by ring. eapply Rle_trans; [apply Rabs_triang|]. lra. }
  assert (KT : forall i j, (i < n)%nat -> (j < m)%nat -> Rabs (rcell m (ob_K o') i j) <= k_top prec emax n m D) by (intros i j Hi Hj; unfold rcell; rewrite CK by assumption; apply TK1; assumption).
  assert (KE' : forall i j, (i < n)%nat -> (j < m)%nat -> Rabs (rcell m (ob_K o') i j - gain_of n m H P W i j) <= k_err prec emax n m D) by (intros i j Hi Hj; unfold rcell at 1; rewrite CK by assumption; apply KE; assumption).
  assert (TY : forall i, (i < m)%nat -> Rabs (rcell 1 (ob_y o') i 0) <= y_top prec emax n D) by (intros i Hi; destruct (NY i Hi) as (v & Ev & _ & _ & _ & Q); unfold rcell; rewrite Ev; exact Q).
  (* the state *)
  assert (NX : forall i, (i < n)%nat -> exists v, cell 1 (kf_x f') i 0 = Some v /\ sf_finite v = true /\
     Rabs (val v - (x i + rsum m (fun q => rcell m (ob_K o') i q * rcell 1 (ob_y o') q 0))) <= ((1 + u) ^ (m + 1) - 1) * (B + INR m * (k_top prec emax n m D * y_top prec emax n D)) + (1 + u) ^ (m + 1) * e * INR m).
  { intros i Hi. assert (SA : rsum m (fun q => Rabs (rcell m (ob_K o') i q) * Rabs (rcell 1 (ob_y o') q 0)) <= INR m * (k_top prec emax n m D * y_top prec emax n D)).
    { apply rsum_top. intros q Hq. apply Rmult_le_compat; try apply Rabs_pos; [apply KT|apply TY]; assumption. }
    destruct (one_given prec emax n 1 (kf_x f) i 0 Fx Vx Hi ltac:(lia)) as (q0 & Eq & Vq). destruct (Ix i 0%nat Hi ltac:(lia)) as (q0' & Eq' & Fq). assert (q0' = q0) by congruence. subst q0'.
    assert (Xi : x i = val q0) by (unfold x, rcell; rewrite Eq; reflexivity).
    assert (GK : given prec emax m (fun l => cell m (ob_K o') i l)).
    { intros l Hl. rewrite CK by assumption. exact (row_given prec emax n m (ob_K o1) i FK VK Hi l Hl). }
    assert (GY : given prec emax m (fun l => cell 1 (ob_y o') l 0)) by (intros l Hl; destruct (NY l Hl) as (v & Ev & Vv & _); eauto).
    assert (AK : allfin m (fun l => cell m (ob_K o') i l)) by (apply (row_fin n); assumption).
    assert (AY : allfin m (fun l => cell 1 (ob_y o') l 0)) by (intros l w Hl Ew; destruct (NY l Hl) as (v & Ev & Vv & Fv & _); congruence).
    destruct (vec_err prec emax sz HF false m q0 (fun l => cell m (ob_K o') i l) (fun l => cell 1 (ob_y o') l 0) Hm Vq GK GY) as (r & Er & Br).
    assert (Fr : sf_finite r = true).
    { apply (vec_fin prec emax sz HF false m q0 (fun l => cell m (ob_K o') i l) (fun l => cell 1 (ob_y o') l 0)); auto.
      rewrite <- Xi. apply (vec_room_small prec emax m (x i) (fun q => rcell m (ob_K o') i q) (fun q => rcell 1 (ob_y o') q 0) B (INR m * (k_top prec emax n m D * y_top prec emax n D))); auto. }
    exists r. split; [rewrite (HX i Hi), Eq; exact Er|]. split; [exact Fr|]. rewrite Xi.
    destruct (vec_small prec emax m (val q0) (fun q => rcell m (ob_K o') i q) (fun q => rcell 1 (ob_y o') q 0) r B _ Br Fr ltac:(rewrite <- Xi; apply BX, Hi) SA) as (Q & _). exact Q. }
  split. { intros i j Hi Hj. destruct (NX i Hi) as (v & Ev & Fv & _). replace j with 0%nat by lia. eauto. }
  split. { intros i j Hi Hj. rewrite CP by assumption. apply IP1; assumption. }
  split; [exact IW|]. cbv zeta. split; [|split].
  - intros i j Hi Hj. eapply Rle_trans; [apply KE'; assumption|]. eapply b_final; [eassumption..|apply b_kerr; assumption| | |]; [lra|lia|lia].
  - intros i Hi. apply Rle_trans with (x_err prec emax n m D); [|eapply b_final; [eassumption..|apply b_xerr; assumption| | |]; [lra|lia|lia]].
    assert (EA : eig_above m (upper_of (inn_cov n H P Rm)) lam).
    { intros v. eapply Rle_trans; [|apply Heig]. apply Rmult_le_compat_r; [apply rsum_sq_abs|]. lra. }
    assert (KX : forall q, (q < m)%nat -> Rabs (gain_of n m H P W i q) <= k_exact m D).
    { intros q Hq. unfold gain_of, k_exact. cbn [D cd_p cd_rho cd_lam]. eapply Rle_trans; [apply rsum_abs|]. apply rsum_top. intros k Hk. rewrite Rabs_mult. apply Rmult_le_compat; try apply Rabs_pos.
      - eapply Rle_trans; [apply rsum_abs|]. apply Rle_trans with (rsum n (fun l => Rabs (P i l) * Rabs (H k l))); [right; apply rsum_ext; intros; apply Rabs_mult|]. apply rsum_col; auto.
      - apply (inverse_small m _ W lam Hl0 EA IW k q Hk Hq). }
    set (K := gain_of n m H P W) in *. set (y := fun q => z q - rcell 1 out q 0).
    destruct (NX i Hi) as (v & Ev & _ & Q). unfold rcell at 1. rewrite Ev. unfold x_err, corr_x. cbn [D cd_x]. change (oval (Some v)) with (val v).
    replace (val v - (x i + rsum m (fun p0 => K i p0 * y p0))) with
      ((val v - (x i + rsum m (fun q => rcell m (ob_K o') i q * rcell 1 (ob_y o') q 0))) + (rsum m (fun q => rcell m (ob_K o') i q * rcell 1 (ob_y o') q 0) - rsum m (fun q => K i q * y q))) by ring.
    eapply Rle_trans; [apply Rabs_triang|]. apply Rplus_le_compat; [exact Q|]. rewrite rsum_minus. eapply Rle_trans; [apply rsum_abs|]. apply rsum_top. intros q Hq.
    replace (rcell m (ob_K o') i q * rcell 1 (ob_y o') q 0 - K i q * y q) with ((rcell m (ob_K o') i q - K i q) * rcell 1 (ob_y o') q 0 + K i q * (rcell 1 (ob_y o') q 0 - y q)) by ring.
    eapply Rle_trans; [apply Rabs_triang|]. rewrite !Rabs_mult. destruct (NY q Hq) as (w & Ew & _ & _ & Qy & _).
    apply Rplus_le_compat; (apply Rmult_le_compat; try apply Rabs_pos); [apply KE'|apply TY|apply KX|]; auto. unfold rcell at 1. rewrite Ew. exact Qy.
  - intros i j Hi Hj. unfold rcell at 1. rewrite CP by assumption. eapply Rle_trans; [apply PE; assumption|]. eapply b_final; [eassumption..|apply b_perr; assumption| | |]; [lra|lia|lia].
Qed.
End Nl.
