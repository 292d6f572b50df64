(** * The diagonal of a floating-point Cholesky factor *)
From Coq Require Import ZArith Reals Lia Lra Psatz.
From Flocq Require Import Core BinarySingleNaN.
From Verif Require Import Prelude Spec SpecBits Matrix Filter SpecFilter Wp Kernels Access BuildSim FloatNum SpecFloats FloatWit SpecReal FloatFlocq BitsProof.
Import SpecFloat.
Open Scope R_scope.

Section Sqrt.
Variables prec emax : Z.
Context (Hprec : Prec_gt_0 prec) (Hmax : Prec_lt_emax prec emax).
Notation vf := (valid_binary prec emax).

Lemma pos_val x : sf_finite x = true -> 0 < val x -> sf_pos x = true.
Proof.
  destruct x as [s|s| |s m e]; cbn; try discriminate; intros _ H; try lra. destruct s; [|reflexivity].
  unfold val in H; cbn in H. unfold F2R in H; cbn in H. pose proof (bpow_gt_0 radix2 e). pose proof (IZR_lt _ _ (Pos2Z.neg_is_neg m)). cbn in H1. nra.
Qed.

(** the square root of a number not [<= 0] is a positive number (or infinite), or a NaN *)
Lemma sqrt_pos s : vf s = true -> SFleb s (S754_zero false) = false -> 
  (sf_nan s = true /\ sf_nan (SFsqrt prec emax s) = true) \/ (sf_pos s = true /\ sf_pos (SFsqrt prec emax s) = true).
Proof.
  intros V H. destruct s as [b|b| |b m e].
  - discriminate.
  - destruct b; [discriminate|right; split; reflexivity].
  - left; split; reflexivity.
  - destruct b; [discriminate|]. right. split; [reflexivity|].
    pose proof V as V'. apply vf_B in V'. destruct V' as (x & Ex).
    assert (F : is_finite x = true) by (rewrite <- fin_B, <- Ex; reflexivity).
    assert (Hx : B2R x = F2R (Float radix2 (Zpos m) e)) by (rewrite <- SF2R_B2SF, <- Ex; reflexivity).
    rewrite Ex, (sqrt_equiv prec emax Hprec Hmax).
    destruct (Bsqrt_correct prec emax Hprec Hmax mode_NE x) as (HR & HFin & _).
    assert (Fin : is_finite (Bsqrt mode_NE x) = true).
    { rewrite HFin. destruct x as [sx|sx| |sx mx ex Bx]; try discriminate Ex. cbn in Ex. injection Ex as <- _ _. reflexivity. }
    apply pos_val; [rewrite fin_B; exact Fin|]. unfold val. rewrite SF2R_B2SF, HR.
    assert (He : (3 - emax - prec <= e)%Z).
    { cbn in V. unfold bounded in V. apply andb_prop in V. destruct V as (V & _). apply Zeq_bool_eq in V. rewrite <- V. unfold SpecFloat.fexp, emin. lia. }
    pose proof Hprec as Hp. pose proof Hmax as Hm. unfold Prec_gt_0 in Hp. unfold Prec_lt_emax in Hm.
    set (emn := (3 - emax - prec)%Z) in *.
    assert (Hb : bpow radix2 emn <= B2R x).
    { rewrite Hx. unfold F2R; cbn. eapply Rle_trans; [apply bpow_le, He|]. pose proof (bpow_gt_0 radix2 e).
      assert (1 <= IZR (Zpos m)) by (apply IZR_le; lia). nra. }
    assert (Hs : bpow radix2 emn <= sqrt (B2R x)).
    { eapply Rle_trans; [|apply sqrt_le_1_alt, Hb]. pose proof (bpow_gt_0 radix2 emn).
      rewrite <- (sqrt_Rsqr (bpow radix2 emn)) at 1 by lra. apply sqrt_le_1_alt. unfold Rsqr.
      assert (bpow radix2 emn <= 1) by (change 1 with (bpow radix2 0); apply bpow_le; unfold emn; lia). nra. }
    eapply Rlt_le_trans; [apply (bpow_gt_0 radix2 emn)|].
    apply round_ge_generic; [apply fexp_correct, Hprec|auto with typeclass_instances| |exact Hs]. apply generic_format_bpow. unfold SpecFloat.fexp, SpecFloat.emin, emn. lia.
Qed.

Lemma one_format : (1 < prec)%Z -> vf (sf_one prec) = true.
Proof.
  intros Hp. pose proof Hmax as Hm. unfold Prec_lt_emax in Hm.
  change (bounded prec emax (Pos.pow 2 (Z.to_pos (prec - 1))) (1 - prec) = true). unfold bounded, canonical_mantissa. rewrite Zpos_digits2_pos, Pos2Z.inj_pow, Z2Pos.id by lia.
  change (2 ^ (prec - 1))%Z with (radix_val radix2 ^ (prec - 1))%Z. rewrite Digits.Zdigits_Zpower by lia.
  apply andb_true_intro. split; [|apply Z.leb_le; lia]. rewrite Zeq_bool_true; [reflexivity|]. unfold SpecFloat.fexp, SpecFloat.emin. lia.
Qed.

Variable sz : bool.
Notation NN := (sf_num prec emax sz).

Lemma subdot_format K a f g s : vf a = true ->
  (forall k x, (k < K)%nat -> f k = Some x -> vf x = true) -> (forall k x, (k < K)%nat -> g k = Some x -> vf x = true) ->
  subdot NN K a f g = Some s -> vf s = true.
Proof.
  revert s. induction K as [|K IH]; intros s Ha Hf Hg H; cbn [subdot] in H; [injection H as <-; exact Ha|].
  destruct (subdot NN K a f g) as [acc|] eqn:E; [|discriminate]. destruct (f K) as [u|] eqn:Ef; [|discriminate]. destruct (g K) as [v|] eqn:Eg; [|discriminate].
  cbn in H. injection H as <-. assert (Vacc : vf acc = true) by (apply (IH acc); auto; intros k x Hk; [apply Hf|apply Hg]; lia).
  apply vf_sub; auto. apply vf_mul; auto; [eapply Hf|eapply Hg]; eauto.
Qed.
End Sqrt.

Section Main.
Variables (c : cfg) (prec emax : Z) (sz : bool).
Hypothesis HF : format_ok prec emax.
Notation NN := (sf_num prec emax sz).
#[local] Instance hprec : Prec_gt_0 prec. Proof. unfold Prec_gt_0. destruct HF. lia. Qed.
#[local] Instance hmax : Prec_lt_emax prec emax. Proof. apply HF. Qed.
Notation vf := (valid_binary prec emax).

Lemma factor_format n A L : (forall i j x, (i < n)%nat -> (j < n)%nat -> cell n A i j = Some x -> vf x = true) ->
  b_factor NN n (cell n A) (cell n L) ->
  forall i, (i < n)%nat -> forall j x, (i <= j < n)%nat -> cell n L j i = Some x -> vf x = true.
Proof.
  intros HA (HC & _) i. induction i as [i IH] using lt_wf_ind. intros Hi j x Hj Ex.
  destruct (HC i Hi) as (s & l & d & H1 & H2 & H3 & H4 & H5 & H6).
  assert (Row : forall r k y, (i <= r < n)%nat -> (k < i)%nat -> cell n L r k = Some y -> vf y = true) by (intros r k y Hr Hk E; apply (IH k Hk ltac:(lia) r y); auto; lia).
  assert (Vs : vf s = true).
  { destruct (cell n A i i) as [a|] eqn:Ea; [|discriminate]. cbn [obind] in H1. eapply subdot_format; [..|exact H1]; eauto with typeclass_instances.
    all: intros k y Hk; apply Row; lia. }
  assert (Vl : vf l = true) by (cbn in H3; injection H3 as <-; apply vf_sqrt; auto with typeclass_instances).
  destruct (Nat.eq_dec j i) as [->|Hne]; [rewrite H5 in Ex; injection Ex as <-; exact Vl|].
  destruct (H6 j ltac:(lia)) as (G1 & _). rewrite Ex in G1. unfold b_mul in G1.
  destruct (cell n A i j) as [a|] eqn:Ea; [|discriminate]. cbn [obind] in G1.
  destruct (subdot NN i a _ _) as [s'|] eqn:Es; [|discriminate]. change (Some x = Some (SFmul prec emax s' d)) in G1. assert (Ex' : x = SFmul prec emax s' d) by congruence. rewrite Ex'.
  apply vf_mul; auto with typeclass_instances.
  - eapply subdot_format; [..|exact Es]; eauto with typeclass_instances.
    { eapply HA; [| |exact Ea]; lia. }
    all: intros k y Hk; apply Row; lia.
  - change (Some (SFdiv prec emax (sf_one prec) l) = Some d) in H4. assert (Ed : d = SFdiv prec emax (sf_one prec) l) by congruence. rewrite Ed. apply vf_div; auto with typeclass_instances. apply one_format; [exact hmax|apply HF].
Qed.

Lemma cholesky_diag n A L : (1 <= n)%nat -> valid c n n A -> all_in_format prec emax A ->
  cholesky_decompose_lower c NN n n A = Ok (true, L) ->
  forall i, (i < n)%nat -> exists d, cell n L i i = Some d /\ (sf_pos d = true \/ sf_nan d = true).
Proof.
  intros Hn VA FA H i Hi. destruct (cholesky_bits c NN n A true L Hn VA H) as (_ & HL).
  destruct HL as (HC & HU). destruct (HC i Hi) as (s & l & d & H1 & H2 & H3 & H4 & H5 & H6). exists l. split; [exact H5|].
  assert (HFm : forall i j x, (i < n)%nat -> (j < n)%nat -> cell n A i j = Some x -> vf x = true).
  { intros i' j' x _ _ E. unfold all_in_format in FA. rewrite Forall_forall in FA. apply FA. exact (nth_error_In _ _ E). }
  assert (Vs : vf s = true).
  { destruct (cell n A i i) as [a|] eqn:Ea; [|discriminate]. cbn [obind] in H1. eapply subdot_format; [..|exact H1]; eauto with typeclass_instances.
    all: intros k y Hk; apply (factor_format n A L HFm (conj HC HU) k); lia. }
  cbn in H3. injection H3 as <-. destruct (sqrt_pos prec emax _ _ s Vs H2) as [(_ & G)|(_ & G)]; auto.
Qed.
End Main.

(** a finite, hopelessly indefinite matrix is accepted *)
Definition indef : list spec_float :=
  let z := S754_zero false in [f32 1 (-126); z; f32 1 127;  z; f32 1 0; z;  f32 1 127; z; f32 1 0].
Lemma indef_accepted (c : cfg) (sz : bool) : (255 <= usize_max c)%nat ->
  exists A L, valid c 3 3 A /\ all_finite A /\ sf_sym 3 A /\ cell 3 A 0 0 = Some (f32 1 (-126)) /\ cell 3 A 2 2 = Some (f32 1 0) /\ cell 3 A 0 2 = Some (f32 1 127) /\
    cholesky_decompose_lower c (f32_num sz) 3 3 A = Ok (true, L) /\ cell 3 L 2 2 = Some S754_nan.
Proof.
  intros Hc. assert (E : exists L, cholesky_decompose_lower tiny (f32_num sz) 3 3 indef = Ok (true, L) /\ cell 3 L 2 2 = Some S754_nan).
  { destruct sz; vm_compute; eexists; split; reflexivity. }
  destruct E as (L & E & EN). apply (cholesky_tiny c Hc) in E. exists indef, L.
  split; [vt Hc|]. split; [vm_compute; reflexivity|]. split.
  { intros i j Hi Hj. do 3 (destruct i as [|i]; [do 3 (destruct j as [|j]; [reflexivity|]); lia|]). lia. }
  split; [reflexivity|]. split; [reflexivity|]. split; [reflexivity|]. split; [exact E|exact EN].
Qed.
