(** * Integers of moderate size: no rounding at all *)
From Coq Require Import ZArith Reals Lia Lra Psatz.
From Flocq Require Import Core BinarySingleNaN.
From Verif Require Import Prelude Spec SpecBits Matrix Filter SpecFilter Kernels FloatNum SpecFloats SpecReal FloatFlocq FloatErr BitsProof.
Import SpecFloat.
Open Scope R_scope.

Section Int.
Variables prec emax : Z.
Context (Hprec : Prec_gt_0 prec) (Hmax : Prec_lt_emax prec emax).
Notation vf := (valid_binary prec emax).
Notation rnd := (round radix2 (SpecFloat.fexp prec emax) ZnearestE).

Lemma int_format z : (Z.abs z <= 2 ^ prec)%Z -> generic_format radix2 (SpecFloat.fexp prec emax) (IZR z).
Proof.
  intros H. rewrite fexp_FLT. pose proof Hprec as Hp. pose proof Hmax as Hm. unfold Prec_gt_0 in Hp. unfold Prec_lt_emax in Hm.
  assert (Hcase : (Z.abs z < 2 ^ prec \/ Z.abs z = 2 ^ prec)%Z) by lia.
  assert (Ht : forall w, (Z.abs w < 2 ^ prec)%Z -> generic_format radix2 (FLT_exp (3 - emax - prec) prec) (IZR w)).
  { intros w Hw. apply generic_format_FLT. exists (Float radix2 w 0).
    - unfold F2R; cbn. ring.
    - exact Hw.
    - change (3 - emax - prec <= 0)%Z. lia. }
  assert (Hpow : generic_format radix2 (FLT_exp (3 - emax - prec) prec) (IZR (2 ^ prec))).
  { change 2%Z with (radix_val radix2). rewrite IZR_Zpower by lia. apply generic_format_bpow. unfold FLT_exp. lia. }
  destruct Hcase as [Hl|He]; [auto|].
  destruct (Z.abs_eq_or_opp z) as [E|E]; rewrite E in He.
  - rewrite He. exact Hpow.
  - replace z with (- 2 ^ prec)%Z by lia. rewrite opp_IZR. apply generic_format_opp. exact Hpow.
Qed.

Lemma int_small z : (Z.abs z <= 2 ^ prec)%Z -> Rabs (IZR z) < bpow radix2 emax.
Proof.
  intros H. pose proof Hprec as Hp. pose proof Hmax as Hm. unfold Prec_gt_0 in Hp. unfold Prec_lt_emax in Hm.
  rewrite <- abs_IZR. eapply Rle_lt_trans; [apply IZR_le, H|]. change 2%Z with (radix_val radix2). rewrite IZR_Zpower by lia. apply bpow_lt. lia.
Qed.

Lemma mul_int a b x y : vf a = true -> vf b = true -> is_int a x -> is_int b y -> (Z.abs (x * y) <= 2 ^ prec)%Z ->
  is_int (SFmul prec emax a b) (x * y).
Proof.
  intros Ha Hb (Fa & Va) (Fb & Vb) H. apply vf_B in Ha, Hb; auto. destruct Ha as [p ->], Hb as [q ->]. rewrite mul_equiv with (Hprec := Hprec) (Hmax := Hmax).
  unfold is_int, val in *. rewrite fin_B in *. rewrite SF2R_B2SF in *.
  pose proof (Bmult_correct prec emax Hprec Hmax mode_NE p q) as HB. rewrite Va, Vb, <- mult_IZR in HB.
  change (round_mode mode_NE) with ZnearestE in HB. rewrite (round_generic _ _ _ (IZR (x * y))) in HB by (apply int_format, H).
  rewrite Rlt_bool_true in HB by (apply int_small, H). destruct HB as (HR & HF & _). rewrite HF, Fa, Fb. auto.
Qed.
Lemma add_int a b x y : vf a = true -> vf b = true -> is_int a x -> is_int b y -> (Z.abs (x + y) <= 2 ^ prec)%Z ->
  is_int (SFadd prec emax a b) (x + y).
Proof.
  intros Ha Hb (Fa & Va) (Fb & Vb) H. apply vf_B in Ha, Hb; auto. destruct Ha as [p ->], Hb as [q ->]. rewrite add_equiv with (Hprec := Hprec) (Hmax := Hmax).
  unfold is_int, val in *. rewrite fin_B in *. rewrite SF2R_B2SF in *.
  pose proof (Bplus_correct prec emax Hprec Hmax mode_NE p q Fa Fb) as HB. rewrite Va, Vb, <- plus_IZR in HB.
  change (round_mode mode_NE) with ZnearestE in HB. rewrite (round_generic _ _ _ (IZR (x + y))) in HB by (apply int_format, H).
  rewrite Rlt_bool_true in HB by (apply int_small, H). destruct HB as (HR & HF & _). rewrite HF. auto.
Qed.

Variable sz : bool.
Notation NN := (sf_num prec emax sz).
Definition ints (K : nat) (f : nat -> option spec_float) (x : nat -> Z) : Prop :=
  forall k, (k < K)%nat -> exists a, f k = Some a /\ vf a = true /\ is_int a (x k).

Lemma abs_tail (s t p : Z) : (s + t <= p -> 0 <= s -> t <= p)%Z. Proof. lia. Qed.
Lemma abs_head (s t p : Z) : (s + Z.abs t <= p -> s <= p)%Z. Proof. lia. Qed.
Lemma abs_both (s S t p : Z) : (S + Z.abs t <= p -> Z.abs s <= S -> Z.abs (s + t) <= p)%Z. Proof. lia. Qed.
Lemma zsum_abs K f : (Z.abs (zsum K f) <= zsum K (fun k => Z.abs (f k)))%Z.
Proof. induction K; cbn; lia. Qed.
Lemma zsum_pos K f : (forall k, 0 <= f k)%Z -> (0 <= zsum K f)%Z.
Proof. intros H. induction K; cbn; [lia|]. specialize (H K). lia. Qed.

Lemma dot_int K f g x y : ints K f x -> ints K g y -> (zsum K (fun k => Z.abs (x k * y k)) <= 2 ^ prec)%Z ->
  exists r, dot NN K f g = Some r /\ vf r = true /\ is_int r (zsum K (fun k => x k * y k)%Z).
Proof.
  induction K as [|K IH]; intros Hf Hg HS; cbn [dot zsum].
  - exists (S754_zero false). repeat split.
  - cbn [zsum] in HS.
    pose proof (zsum_pos K (fun k => Z.abs (x k * y k)) ltac:(intros; lia)) as HP.
    destruct IH as (r & -> & Vr & Ir); [intros k Hk; apply Hf; lia|intros k Hk; apply Hg; lia|eapply abs_head; eassumption|].
    destruct (Hf K) as (a & -> & Va & Ia); [lia|]. destruct (Hg K) as (b & -> & Vb & Ib); [lia|]. cbn.
    eexists; split; [reflexivity|]. split; [apply vf_add; auto; apply vf_mul; auto|].
    apply add_int; auto. apply vf_mul; auto. apply mul_int; auto. eapply abs_tail; eassumption.
    pose proof (zsum_abs K (fun k => x k * y k)%Z). eapply abs_both; eassumption.
Qed.
Lemma dot1_int K f g x y : (1 <= K)%nat -> ints K f x -> ints K g y -> (zsum K (fun k => Z.abs (x k * y k)) <= 2 ^ prec)%Z ->
  exists r, dot1 NN K f g = Some r /\ vf r = true /\ is_int r (zsum K (fun k => x k * y k)%Z).
Proof.
  induction K as [|[|K] IH]; intros HK Hf Hg HS; [lia| |].
  - cbn. destruct (Hf 0%nat) as (a & -> & Va & Ia); [lia|]. destruct (Hg 0%nat) as (b & -> & Vb & Ib); [lia|]. cbn in *.
    eexists; split; [reflexivity|]. split; [apply vf_mul; auto|]. apply mul_int; auto.
  - rewrite dot1_S. change (zsum (S (S K)) ?q) with (zsum (S K) q + q (S K))%Z in *. cbv beta in *.
    pose proof (zsum_pos (S K) (fun k => Z.abs (x k * y k)) ltac:(intros; lia)) as HP.
    destruct IH as (r & -> & Vr & Ir); [lia|intros k Hk; apply Hf; lia|intros k Hk; apply Hg; lia|eapply abs_head; eassumption|].
    destruct (Hf (S K)) as (a & -> & Va & Ia); [lia|]. destruct (Hg (S K)) as (b & -> & Vb & Ib); [lia|]. cbn.
    eexists; split; [reflexivity|]. split; [apply vf_add; auto; apply vf_mul; auto|].
    apply add_int; auto. apply vf_mul; auto. apply mul_int; auto. eapply abs_tail; eassumption.
    pose proof (zsum_abs (S K) (fun k => x k * y k)%Z). eapply abs_both; eassumption.
Qed.
End Int.
