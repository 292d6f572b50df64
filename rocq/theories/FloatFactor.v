(** * Backward error of the floating-point Cholesky factor *)
From Coq Require Import ZArith Reals Lia Lra Psatz.
From Flocq Require Import Core BinarySingleNaN.
From Verif Require Import Prelude Spec SpecBits Matrix Filter SpecFilter Wp Kernels Access FloatNum SpecFloats SpecReal FloatFlocq FloatOps FloatErr FloatChol BitsProof.
Import SpecFloat.
Open Scope R_scope.

Section Factor.
Variables (c : cfg) (prec emax : Z) (sz : bool).
Hypothesis HF : format_ok prec emax.
Notation NN := (sf_num prec emax sz).
#[local] Instance hprec : Prec_gt_0 prec. Proof. unfold Prec_gt_0. destruct HF. lia. Qed.
#[local] Instance hmax : Prec_lt_emax prec emax. Proof. apply HF. Qed.
Notation vf := (valid_binary prec emax).
Notation u := (uro prec). Notation eta := (eta prec emax).

Lemma u_small : 0 < u <= / 4.
Proof.
  split; [apply bpow_gt_0|]. unfold uro. replace (/ 4) with (bpow radix2 (-2)) by (cbn; lra). apply bpow_le. destruct HF. lia.
Qed.

Lemma subdot_err K a f g s : vf a = true -> given prec emax K f -> given prec emax K g -> subdot NN K a f g = Some s -> sf_finite s = true ->
  Rabs (val a - val s - rsum K (fun k => oval (f k) * oval (g k))) <=
    ((1 + u) ^ K - 1) * (Rabs (val s) + rsum K (fun k => Rabs (oval (f k)) * Rabs (oval (g k)))) + INR K * (1 + u) ^ K * eta.
Proof.
  intros Va. pose proof u_small as Hu. pose proof (eta_pos prec emax) as He. revert s.
  induction K as [|K IH]; intros s Hf Hg H F.
  - cbn in H. injection H as <-. cbn. replace (val a - val a - 0) with 0 by ring. rewrite Rabs_R0. lra.
  - cbn [subdot] in H. destruct (subdot NN K a f g) as [s0|] eqn:E0; [|discriminate].
    destruct (Hf K ltac:(lia)) as (x & Ex & Vx). destruct (Hg K ltac:(lia)) as (y & Ey & Vy). rewrite Ex, Ey in H. cbn in H. injection H as <-.
    assert (Gf : given prec emax K f) by (eapply given_le; eauto). assert (Gg : given prec emax K g) by (eapply given_le; eauto).
    assert (V0 : vf s0 = true).
    { eapply subdot_format; [exact hprec|exact hmax|exact Va| | |exact E0]; intros k z Hk Ez; [destruct (Gf k Hk) as (z' & Ez' & Vz)|destruct (Gg k Hk) as (z' & Ez' & Vz)]; congruence. }
    assert (Vp : vf (SFmul prec emax x y) = true) by (apply vf_mul; auto with typeclass_instances).
    destruct (sub_val prec emax _ _ s0 _ V0 Vp F) as (F0 & Fp).
    destruct (sub_err_both prec emax _ _ s0 _ V0 Vp F) as (_ & HS). destruct (mul_err_both prec emax _ _ x y Vx Vy Fp) as (HM & _).
    specialize (IH s0 Gf Gg eq_refl F0). cbn [rsum]. rewrite Ex, Ey. cbn [oval].
    set (q := (1 + u) ^ K) in *. assert (Hq : 1 <= q) by (apply pow_R1_Rle; lra).
    set (p := val (SFmul prec emax x y)) in *. set (s' := val (SFsub prec emax s0 (SFmul prec emax x y))) in *. set (t := val x * val y) in *.
    set (T := rsum K (fun k => Rabs (oval (f k)) * Rabs (oval (g k)))) in *. set (S0 := rsum K (fun k => oval (f k) * oval (g k))) in *.
    assert (HT : 0 <= T) by (apply rsum_pos; intros; apply Rmult_le_pos; apply Rabs_pos).
    rewrite <- Rabs_mult. fold t. rewrite S_INR. cbn [pow]. fold q. pose proof (pos_INR K) as HK. pose proof (Rabs_pos t) as Ht. pose proof (Rabs_pos s') as Hs'.
    replace (val a - s' - (S0 + t)) with ((val a - val s0 - S0) + (- (s' - (val s0 - p))) + (p - t)) by ring.
    eapply Rle_trans; [apply Rabs_triang|]. eapply Rle_trans; [apply Rplus_le_compat_r, Rabs_triang|]. rewrite Rabs_Ropp.
    assert (Hs0 : Rabs (val s0) <= (1 + u) * Rabs s' + (1 + u) * Rabs t + eta).
    { replace (val s0) with (- (s' - (val s0 - p)) + s' + (p - t) + t) by ring.
      eapply Rle_trans; [apply Rabs_triang|]. eapply Rle_trans; [apply Rplus_le_compat_r, Rabs_triang|].
      eapply Rle_trans; [apply Rplus_le_compat_r, Rplus_le_compat_r, Rabs_triang|]. rewrite Rabs_Ropp. lra. }
    assert (H1 : (q - 1) * (Rabs (val s0) + T) <= (q - 1) * ((1 + u) * Rabs s' + (1 + u) * Rabs t + eta + T)) by (apply Rmult_le_compat_l; lra).
    assert (H2 : (INR K + 1) * q * eta <= (INR K + 1) * ((1 + u) * q) * eta).
    { apply Rmult_le_compat_r; [lra|]. apply Rmult_le_compat_l; [lra|]. nra. }
    assert (H3 : (q - 1) * T <= ((1 + u) * q - 1) * T) by (apply Rmult_le_compat_r; [lra|nra]).
    nra.
Qed.

(** the last step of an off-diagonal entry: L_ji = s * (1 / l) *)
Lemma off_diag (s l d t : R) : 0 < l -> Rabs (d - / l) <= u * Rabs (/ l) -> Rabs (t - s * d) <= u * Rabs t + eta ->
  Rabs (s - l * t) <= ((1 + u) ^ 3 - 1) * Rabs (l * t) + 2 * (eta * l).
Proof.
  pose proof u_small as Hu. pose proof (eta_pos prec emax) as He. intros Hl Hd Ht.
  assert (H1 : Rabs (s * d * l - t * l) <= u * Rabs (l * t) + eta * l).
  { replace (s * d * l - t * l) with (- (t - s * d) * l) by ring. rewrite Rabs_mult, Rabs_Ropp, Rabs_mult, (Rabs_pos_eq l) by lra. nra. }
  assert (H2 : Rabs (s - s * d * l) <= u * Rabs s).
  { replace (s - s * d * l) with (- s * ((d - / l) * l)) by (field; lra). rewrite Rabs_mult, Rabs_Ropp, Rabs_mult, (Rabs_pos_eq l) by lra.
    rewrite (Rabs_pos_eq (/ l)) in Hd by (left; apply Rinv_0_lt_compat, Hl).
    assert (Rabs (d - / l) * l <= u). { replace u with (u * / l * l) by (field; lra). apply Rmult_le_compat_r; lra. }
    pose proof (Rabs_pos s). nra. }
  assert (H3 : Rabs (s - l * t) <= u * Rabs s + u * Rabs (l * t) + eta * l).
  { replace (s - l * t) with ((s - s * d * l) + (s * d * l - t * l)) by ring. eapply Rle_trans; [apply Rabs_triang|]. lra. }
  assert (H4 : Rabs s <= Rabs (s - l * t) + Rabs (l * t)).
  { replace s with ((s - l * t) + l * t) at 1 by ring. apply Rabs_triang. }
  set (z := Rabs (s - l * t)) in *. set (w := Rabs (l * t)) in *. assert (0 <= w) by apply Rabs_pos. assert (0 <= eta * l) by nra.
  assert (H5 : (1 - u) * z <= 2 * u * w + eta * l) by nra.
  assert (H6 : z <= 3 * u * w + 2 * (eta * l)).
  { apply Rmult_le_reg_l with (1 - u); [lra|]. eapply Rle_trans; [exact H5|].
    replace ((1 - u) * (3 * u * w + 2 * (eta * l))) with (2 * u * w + u * (1 - 3 * u) * w + (2 - 2 * u) * (eta * l)) by ring.
    assert (0 <= u * (1 - 3 * u) * w) by (apply Rmult_le_pos; [|lra]; apply Rmult_le_pos; lra). nra. }
  assert (H7 : 3 * u * w <= ((1 + u) ^ 3 - 1) * w) by (apply Rmult_le_compat_r; [lra|]; cbn; nra).
  lra.
Qed.

Lemma combine (K : nat) (a s S0 T lt el : R) : 0 <= T -> 0 <= el ->
  Rabs (a - s - S0) <= ((1 + u) ^ K - 1) * (Rabs s + T) + INR K * (1 + u) ^ K * eta ->
  Rabs (s - lt) <= ((1 + u) ^ 3 - 1) * Rabs lt + 2 * (eta * el) ->
  Rabs (a - (S0 + lt)) <= ((1 + u) ^ (K + 3) - 1) * (T + Rabs lt) + (1 + u) ^ K * eta * (INR K + 2 * el).
Proof.
  pose proof u_small as Hu. pose proof (eta_pos prec emax) as He. intros HT Hel H1 H2. rewrite pow_add.
  set (q := (1 + u) ^ K) in *. set (v := (1 + u) ^ 3) in *. assert (Hq : 1 <= q) by (apply pow_R1_Rle; lra). assert (Hv : 1 <= v) by (apply pow_R1_Rle; lra).
  pose proof (Rabs_pos lt) as Hlt. set (w := Rabs lt) in *.
  assert (H3 : Rabs s <= v * w + 2 * (eta * el)).
  { replace s with ((s - lt) + lt) by ring. eapply Rle_trans; [apply Rabs_triang|]. fold w. lra. }
  replace (a - (S0 + lt)) with ((a - s - S0) + (s - lt)) by ring. eapply Rle_trans; [apply Rabs_triang|].
  assert (H4 : (q - 1) * (Rabs s + T) <= (q - 1) * (v * w + 2 * (eta * el) + T)) by (apply Rmult_le_compat_l; lra).
  assert (H5 : (q - 1) * T <= (q * v - 1) * T) by (apply Rmult_le_compat_r; [lra|nra]).
  nra.
Qed.

Lemma rsum_last K f : rsum (S K) f = rsum K f + f K. Proof. reflexivity. Qed.

Theorem cholesky_backward n A L : (1 <= n)%nat -> (4 <= emax)%Z -> valid c n n A -> all_in_format prec emax A ->
  cholesky_decompose_lower c NN n n A = Ok (true, L) ->
  (forall i j x, (j <= i < n)%nat -> cell n L i j = Some x -> sf_finite x = true) ->
  forall i j, (i <= j < n)%nat ->
    Rabs (rcell n A i j - rsum (S i) (fun k => rcell n L i k * rcell n L j k)) <=
      ((1 + u) ^ (i + 3) - 1) * rsum (S i) (fun k => Rabs (rcell n L i k) * Rabs (rcell n L j k))
      + (1 + u) ^ i * eta * (INR i + 2 * rcell n L i i).
Proof.
  intros Hn He VA FA H Fin i j Hij. destruct (cholesky_bits c NN n A true L Hn VA H) as (_ & HL).
  pose proof HL as (HC & _). destruct (HC i ltac:(lia)) as (s & l & d & H1 & H2 & H3 & H4 & H5 & H6).
  assert (HFm : forall i j x, (i < n)%nat -> (j < n)%nat -> cell n A i j = Some x -> vf x = true).
  { intros i' j' x _ _ E. unfold all_in_format in FA. rewrite Forall_forall in FA. apply FA. exact (nth_error_In _ _ E). }
  pose proof (factor_format prec emax sz HF n A L HFm HL) as HLf.
  assert (VL : (n * n <= length L)%nat).
  { pose proof (cholesky_bits c NN n A true L Hn VA H) as ((E & _) & _). rewrite E. apply VA. }
  assert (Row : forall r, (i <= r < n)%nat -> given prec emax i (fun k => cell n L r k)).
  { intros r Hr k Hk. destruct (cell n L r k) as [x|] eqn:Ex.
    - exists x. split; [reflexivity|]. apply (HLf k ltac:(lia) r x); [lia|exact Ex].
    - unfold cell in Ex. apply nth_error_None in Ex. nia. }
  assert (Fl : sf_finite l = true) by (apply (Fin i i l); [lia|exact H5]).
  cbn in H3. assert (El : l = SFsqrt prec emax s) by congruence. clear H3.
  assert (Vs : vf s = true).
  { destruct (cell n A i i) as [a|] eqn:Ea; [|discriminate]. cbn [obind] in H1.
    eapply subdot_format; [exact hprec|exact hmax|eapply HFm; [| |exact Ea]; lia| | |exact H1]; intros k y Hk Ey; destruct (Row i ltac:(lia) k Hk) as (y' & E' & V'); congruence. }
  assert (Fl' : sf_finite (SFsqrt prec emax s) = true) by (rewrite <- El; exact Fl).
  destruct (sqrt_val prec emax _ _ s Vs Fl' H2) as (Fs & Ps & _).
  destruct (sqrt_err prec emax _ _ s Vs Fl' H2) as (Hl & Hsq). pose proof (sqrt_upper prec emax _ _ s He Vs Fl' H2) as Hup. rewrite <- El in Hl, Hsq, Hup.
  assert (Vl : vf l = true) by (rewrite El; apply vf_sqrt; auto with typeclass_instances).
  pose proof u_small as Hu. pose proof (eta_pos prec emax) as Heta.
  assert (Ell : rcell n L i i = val l) by (unfold rcell; rewrite H5; reflexivity). rewrite Ell.
  assert (HT : forall r, 0 <= rsum i (fun k => Rabs (oval (cell n L i k)) * Rabs (oval (cell n L r k)))) by (intros r; apply rsum_pos; intros; apply Rmult_le_pos; apply Rabs_pos).
  rewrite !rsum_last. rewrite Ell.
  destruct (Nat.eq_dec j i) as [->|Hne].
  - destruct (cell n A i i) as [a|] eqn:Ea; [|discriminate]. cbn [obind] in H1. assert (Ra : rcell n A i i = val a) by (unfold rcell; rewrite Ea; reflexivity). rewrite Ra, Ell.
    rewrite <- Rabs_mult. eapply combine with (s := val s).
    + apply (HT i).
    + lra.
    + apply (subdot_err i a _ _ s (HFm i i a ltac:(lia) ltac:(lia) Ea) (Row i ltac:(lia)) (Row i ltac:(lia)) H1 Fs).
    + eapply Rle_trans; [exact Hsq|]. assert (0 <= val l * val l) by nra. rewrite (Rabs_pos_eq (val l * val l)) by lra.
      assert (((1 + u) * (1 + u) - 1) * (val l * val l) <= ((1 + u) ^ 3 - 1) * (val l * val l)).
      { apply Rmult_le_compat_r; [lra|]. cbn. nra. }
      assert (0 <= 2 * (eta * val l)) by nra. lra.
  - destruct (H6 j ltac:(lia)) as (G1 & G2). destruct (cell n A i j) as [a|] eqn:Ea; [|destruct G2; rewrite G1; reflexivity]. cbn [obind] in G1.
    assert (Ra : rcell n A i j = val a) by (unfold rcell; rewrite Ea; reflexivity). rewrite Ra.
    destruct (subdot NN i a (fun k => cell n L i k) (fun k => cell n L j k)) as [s'|] eqn:Es; [|destruct G2; rewrite G1; reflexivity].
    cbn [b_mul obind] in G1. assert (G1' : cell n L j i = Some (SFmul prec emax s' d)) by exact G1. clear G1 G2.
    assert (Rl : rcell n L j i = val (SFmul prec emax s' d)) by (unfold rcell; rewrite G1'; reflexivity). rewrite Rl.
    assert (Ft : sf_finite (SFmul prec emax s' d) = true) by (apply (Fin j i); [lia|exact G1']).
    assert (Vs' : vf s' = true).
    { eapply subdot_format; [exact hprec|exact hmax|eapply HFm; [| |exact Ea]; lia| | |exact Es]; intros k y Hk Ey; [destruct (Row i ltac:(lia) k Hk) as (y' & E' & V')|destruct (Row j ltac:(lia) k Hk) as (y' & E' & V')]; congruence. }
    assert (V1 : vf (sf_one prec) = true) by (apply one_format; [exact hmax|apply HF]).
    assert (Ed : d = SFdiv prec emax (sf_one prec) l) by (change (Some (SFdiv prec emax (sf_one prec) l) = Some d) in H4; congruence).
    assert (Vd : vf d = true) by (rewrite Ed; apply vf_div; auto with typeclass_instances).
    destruct (mul_val prec emax _ _ s' d Vs' Vd Ft) as (Fs' & Fd & _).
    destruct (mul_err_both prec emax _ _ s' d Vs' Vd Ft) as (_ & Hm).
    assert (Hd : Rabs (val d - / val l) <= u * Rabs (/ val l)).
    { rewrite Ed. rewrite (recip_val prec emax _ _ l); auto; [|apply HF|lra|rewrite <- Ed; exact Fd].
      apply (rnd_err_normal prec emax _ (/ val l)). rewrite Rabs_pos_eq; [exact Hup|left; apply Rinv_0_lt_compat, Hl]. }
    rewrite <- Rabs_mult. eapply combine with (s := val s').
    + apply (HT j).
    + lra.
    + apply (subdot_err i a _ _ s' (HFm i j a ltac:(lia) ltac:(lia) Ea) (Row i ltac:(lia)) (Row j ltac:(lia)) Es Fs').
    + apply off_diag with (d := val d); auto.
Qed.
End Factor.
