(** * Powers of two go through the float operations *)
From Coq Require Import ZArith Reals Bool Lia Lra List Floats.SpecFloat Wf_nat.
From Flocq Require Import Core BinarySingleNaN Plus_error.
From Verif Require Import Prelude Numeric FloatNum Spec SpecBits SpecFloats SpecReal FloatFlocq FloatOps FloatChol SpecScale.
Local Open Scope R_scope.

Section Scale.
Variables (prec emax : Z).
Hypothesis Hprec : (1 < prec)%Z.
Hypothesis Hpmax : (prec < emax)%Z.
Instance Hp : FLX.Prec_gt_0 prec. Proof. red. lia. Qed.
Instance Hm : Prec_lt_emax prec emax. Proof. exact Hpmax. Qed.
Notation emin := (3 - emax - prec)%Z.
Notation rnd := (round radix2 (SpecFloat.fexp prec emax) ZnearestE).
Notation rnx := (round radix2 (FLX_exp prec) ZnearestE).
Notation vf := (valid_binary prec emax).
Notation tp := (times_pow2 prec emax).

Lemma rnx_scale e x : rnx (bpow radix2 e * x) = bpow radix2 e * rnx x.
Proof.
  destruct (Req_dec x 0) as [->|Hx]; [rewrite Rmult_0_r, round_0 by auto with typeclass_instances; ring|].
  unfold round, scaled_mantissa, cexp. rewrite (Rmult_comm (bpow radix2 e) x), mag_mult_bpow by exact Hx.
  set (k := FLX_exp prec (mag radix2 x)). replace (FLX_exp prec (mag radix2 x + e)) with (k + e)%Z by (unfold k, FLX_exp; lia).
  replace (x * bpow radix2 e * bpow radix2 (- (k + e))) with (x * bpow radix2 (- k)).
  - unfold F2R; cbn [Fnum Fexp]. rewrite bpow_plus. ring.
  - replace (- k)%Z with (e + - (k + e))%Z by lia. rewrite bpow_plus. ring.
Qed.
Lemma roomy_big v : vf v = true -> roomy prec emax v = true -> is_zero v = false -> bpow radix2 (emin + prec) <= Rabs (val v).
Proof.
  intros V R Z. destruct v as [|?| |s m e]; try discriminate. cbn in V. unfold bounded in V. apply andb_prop in V as [V _].
  pose proof (canonical_canonical_mantissa prec emax s m e V) as C. unfold canonical in C. cbn [Fexp] in C.
  change (val (S754_finite s m e)) with (F2R (Float radix2 (cond_Zopp s (Zpos m)) e)). set (x := F2R _) in *. unfold cexp in C.
  change ((emin <? e)%Z = true) in R. apply Z.ltb_lt in R. unfold SpecFloat.fexp, SpecFloat.emin in C.
  assert (Hx : x <> 0) by (unfold x; apply F2R_neq_0; destruct s; discriminate). pose proof (bpow_mag_le radix2 x Hx) as H.
  eapply Rle_trans; [|exact H]. apply bpow_le. lia.
Qed.
Lemma rnd_rnx x v : vf v = true -> roomy prec emax v = true -> is_zero v = false -> val v = rnd x -> rnd x = rnx x.
Proof.
  intros V R Z E. pose proof (roomy_big v V R Z) as B. rewrite E in B. rewrite fexp_FLT in *. apply round_FLT_FLX.
  destruct (Rle_or_lt (bpow radix2 (emin + prec - 1)) (Rabs x)) as [H|H]; [exact H|]. exfalso.
  assert (H2 : Rabs (round radix2 (FLT_exp emin prec) ZnearestE x) <= bpow radix2 (emin + prec - 1)).
  { apply abs_round_le_generic; [apply FLT_exp_valid; red; lia|auto with typeclass_instances|apply generic_format_bpow; unfold FLT_exp; lia|lra]. }
  assert (H3 : bpow radix2 (emin + prec - 1) < bpow radix2 (emin + prec)) by (apply bpow_lt; lia). lra.
Qed.
Lemma zero_val v : is_zero v = true -> val v = 0. Proof. destruct v; try discriminate. reflexivity. Qed.
Lemma val_zero v : sf_finite v = true -> val v = 0 -> is_zero v = true.
Proof. destruct v as [| | |s m e]; try discriminate; try reflexivity. intros _ H. exfalso. revert H. apply F2R_neq_0. destruct s; discriminate. Qed.
Lemma roomy_fin v : roomy prec emax v = true -> sf_finite v = true. Proof. destruct v; try discriminate; reflexivity. Qed.
Lemma room_inv v r : room prec emax v = Some r -> v = r /\ roomy prec emax r = true.
Proof. unfold room. destruct (roomy prec emax v) eqn:E; intros H; [injection H as <-; auto|discriminate]. Qed.

(** a result that is the rounding of x, roomy, and zero only if x is *)
Lemma result e x x' v v' : vf v = true -> vf v' = true -> roomy prec emax v = true -> roomy prec emax v' = true ->
  val v = rnd x -> val v' = rnd x' -> (is_zero v = true -> x = 0) -> (is_zero v' = true -> x' = 0) -> x' = bpow radix2 e * x -> tp e v v'.
Proof.
  intros V V' R R' E E' Z Z' Ex. split; [exact V|]. split; [exact V'|]. split; [apply roomy_fin, R|]. split; [apply roomy_fin, R'|].
  assert (P : 0 < bpow radix2 e) by apply bpow_gt_0.
  assert (A : val v = rnx x). { destruct (is_zero v) eqn:Ez; [rewrite (Z eq_refl) in *; rewrite E, !round_0 by auto with typeclass_instances; reflexivity|]. rewrite E. apply (rnd_rnx x v); auto. }
  assert (A' : val v' = rnx x'). { destruct (is_zero v') eqn:Ez; [rewrite (Z' eq_refl) in *; rewrite E', !round_0 by auto with typeclass_instances; reflexivity|]. rewrite E'. apply (rnd_rnx x' v'); auto. }
  rewrite A, A', Ex. apply rnx_scale.
Qed.
Lemma rnd_plus_0 a b : vf a = true -> vf b = true -> rnd (val a + val b) = 0 -> val a + val b = 0.
Proof.
  intros Va Vb H. destruct (Req_dec (val a + val b) 0) as [E|E]; [exact E|]. exfalso. revert H.
  rewrite fexp_FLT. apply (round_plus_neq_0 radix2 (FLT_exp emin prec) ZnearestE); [| |exact E]; rewrite <- fexp_FLT; apply val_format; auto using Hp, Hm.
Qed.
Notation NR sz := (sf_roomy prec emax sz).
Lemma tp_add sz e a a' b b' v v' : tp e a a' -> tp e b b' -> o_add (NR sz) a b = Some v -> o_add (NR sz) a' b' = Some v' -> tp e v v'.
Proof.
  intros (Va & Va' & Fa & Fa' & Ea) (Vb & Vb' & Fb & Fb' & Eb) H H'. cbn in H, H'. apply room_inv in H as [H R]. apply room_inv in H' as [H' R'].
  assert (F := roomy_fin _ R). assert (F' := roomy_fin _ R'). rewrite <- H in F. rewrite <- H' in F'.
  destruct (add_val prec emax _ _ a b Va Vb F) as (_ & _ & E). destruct (add_val prec emax _ _ a' b' Va' Vb' F') as (_ & _ & E').
  rewrite H in E. rewrite H' in E'. apply (result e (val a + val b) (val a' + val b')); auto.
  - rewrite <- H. apply vf_add; auto using Hp, Hm.
  - rewrite <- H'. apply vf_add; auto using Hp, Hm.
  - intros Z. apply rnd_plus_0; auto. rewrite <- E. apply zero_val, Z.
  - intros Z. apply rnd_plus_0; auto. rewrite <- E'. apply zero_val, Z.
  - rewrite Ea, Eb. ring.
Qed.
Lemma tp_opp e a a' : tp e a a' -> tp e (SFopp a) (SFopp a').
Proof.
  intros (Va & Va' & Fa & Fa' & Ea). repeat split; try (apply vf_opp; auto using Hp, Hm); try (rewrite fin_opp; assumption). rewrite !val_opp, Ea. ring.
Qed.
Lemma tp_sub sz e a a' b b' v v' : tp e a a' -> tp e b b' -> o_sub (NR sz) a b = Some v -> o_sub (NR sz) a' b' = Some v' -> tp e v v'.
Proof.
  intros A B H H'. cbn in H, H'. rewrite sub_add in H, H'. exact (tp_add sz e a a' (SFopp b) (SFopp b') v v' A (tp_opp _ _ _ B) H H').
Qed.
Lemma tp_neg sz e a a' v v' : tp e a a' -> o_neg (NR sz) a = Some v -> o_neg (NR sz) a' = Some v' -> tp e v v'.
Proof. intros A H H'. cbn in H, H'. injection H as <-. injection H' as <-. apply tp_opp, A. Qed.
Lemma tp_mul sz e1 e2 a a' b b' v v' : tp e1 a a' -> tp e2 b b' -> o_mul (NR sz) a b = Some v -> o_mul (NR sz) a' b' = Some v' -> tp (e1 + e2) v v'.
Proof.
  intros (Va & Va' & Fa & Fa' & Ea) (Vb & Vb' & Fb & Fb' & Eb) H H'. cbn [o_mul sf_roomy] in H, H'. cbv zeta in H, H'.
  destruct (is_zero (SFmul prec emax a b) && negb (is_zero a || is_zero b))%bool eqn:Z; [discriminate|]. destruct (is_zero (SFmul prec emax a' b') && negb (is_zero a' || is_zero b'))%bool eqn:Z'; [discriminate|].
  apply room_inv in H as [H R]. apply room_inv in H' as [H' R'].
  assert (F := roomy_fin _ R). assert (F' := roomy_fin _ R'). rewrite <- H in F. rewrite <- H' in F'.
  destruct (mul_val prec emax _ _ a b Va Vb F) as (_ & _ & E). destruct (mul_val prec emax _ _ a' b' Va' Vb' F') as (_ & _ & E').
  rewrite H in E. rewrite H' in E'. rewrite H in Z. rewrite H' in Z'. apply (result (e1 + e2) (val a * val b) (val a' * val b')); auto.
  - rewrite <- H. apply vf_mul; auto using Hp, Hm.
  - rewrite <- H'. apply vf_mul; auto using Hp, Hm.
  - intros Q. rewrite Q in Z. cbn in Z. apply negb_false_iff, orb_true_iff in Z as [Z|Z]; apply zero_val in Z; rewrite Z; ring.
  - intros Q. rewrite Q in Z'. cbn in Z'. apply negb_false_iff, orb_true_iff in Z' as [Z'|Z']; apply zero_val in Z'; rewrite Z'; ring.
  - rewrite Ea, Eb, bpow_plus. ring.
Qed.
Lemma vf_one : vf (sf_one prec) = true.
Proof. apply one_format; [exact Hm|exact Hprec]. Qed.
Lemma tp_recip sz e a a' v v' : tp e a a' -> o_recip (NR sz) a = Some v -> o_recip (NR sz) a' = Some v' -> tp (- e) v v'.
Proof.
  intros (Va & Va' & Fa & Fa' & Ea) H H'. cbn [o_recip sf_roomy] in H, H'. cbv zeta in H, H'.
  destruct (is_zero (SFdiv prec emax (sf_one prec) a)) eqn:Z; [discriminate|]. destruct (is_zero (SFdiv prec emax (sf_one prec) a')) eqn:Z'; [discriminate|].
  apply room_inv in H as [H R]. apply room_inv in H' as [H' R'].
  assert (F := roomy_fin _ R). assert (F' := roomy_fin _ R'). rewrite <- H in F. rewrite <- H' in F'.
  assert (N0 : val a <> 0). { intros Q. apply val_zero in Q; [|exact Fa]. destruct a; discriminate. }
  assert (N0' : val a' <> 0). { intros Q. apply val_zero in Q; [|exact Fa']. destruct a'; discriminate. }
  pose proof (recip_val prec emax _ _ a Hprec vf_one Va Fa N0 F) as E. pose proof (recip_val prec emax _ _ a' Hprec vf_one Va' Fa' N0' F') as E'.
  rewrite H in E, Z. rewrite H' in E', Z'. apply (result (- e) (/ val a) (/ val a')); auto.
  - rewrite <- H. apply vf_div; auto using Hp, Hm, vf_one.
  - rewrite <- H'. apply vf_div; auto using Hp, Hm, vf_one.
  - intros Q. congruence.
  - intros Q. congruence.
  - rewrite Ea, bpow_opp. field. split; [exact N0|apply Rgt_not_eq, bpow_gt_0].
Qed.
Lemma tp_sqrt sz e a a' v v' : tp (2 * e) a a' -> SFleb a (S754_zero false) = false -> SFleb a' (S754_zero false) = false -> o_sqrt (NR sz) a = Some v -> o_sqrt (NR sz) a' = Some v' -> tp e v v'.
Proof.
  intros (Va & Va' & Fa & Fa' & Ea) L L' H H'. cbn [o_sqrt sf_roomy] in H, H'.
  apply room_inv in H as [H R]. apply room_inv in H' as [H' R'].
  assert (F := roomy_fin _ R). assert (F' := roomy_fin _ R'). rewrite <- H in F. rewrite <- H' in F'.
  destruct (sqrt_val prec emax _ _ a Va F L) as (_ & P & E). destruct (sqrt_val prec emax _ _ a' Va' F' L') as (_ & P' & E').
  rewrite H in E. rewrite H' in E'.
  assert (NZ : forall s, vf s = true -> 0 < val s -> rnd (sqrt (val s)) <> 0).
  { intros s Vs Ps Q. pose proof (sqrt_lower prec emax Hm s Vs Ps) as B. assert (min_normal emax <= rnd (sqrt (val s))); [|pose proof (bpow_gt_0 radix2 (2 - emax)); unfold min_normal in *; lra].
    apply round_ge_generic; [apply FLT_exp_valid; red; lia|auto with typeclass_instances| |exact B]. apply generic_format_bpow. unfold FLT_exp, SpecFloat.fexp, SpecFloat.emin. lia. }
  apply (result e (sqrt (val a)) (sqrt (val a'))); auto.
  - rewrite <- H. apply vf_sqrt; auto using Hp, Hm.
  - rewrite <- H'. apply vf_sqrt; auto using Hp, Hm.
  - intros Q. exfalso. apply (NZ a Va P). rewrite <- E. apply zero_val, Q.
  - intros Q. exfalso. apply (NZ a' Va' P'). rewrite <- E'. apply zero_val, Q.
  - rewrite Ea, sqrt_mult_alt by apply bpow_ge_0. f_equal. replace (2 * e)%Z with (e + e)%Z by lia. rewrite bpow_plus. apply sqrt_square, bpow_ge_0.
Qed.
Lemma tp_leb e a a' : tp e a a' -> SFleb a (S754_zero false) = SFleb a' (S754_zero false).
Proof.
  intros (Va & Va' & Fa & Fa' & Ea).
  assert (B := bpow_gt_0 radix2 e).
  assert (L : forall v, sf_finite v = true -> SFleb v (S754_zero false) = true <-> val v <= 0).
  { intros v F. destruct v as [s|s| |s m k]; try discriminate.
    - split; [intros _; unfold val; cbn; lra|reflexivity].
    - assert (BB := bpow_gt_0 radix2 k). destruct s; cbn; unfold val, F2R; cbn [SF2R F2R Fnum Fexp cond_Zopp]; unfold F2R; cbn [Fnum Fexp].
      + split; [intros _|reflexivity]. assert (IZR (Z.neg m) < 0) by (apply IZR_lt; lia). nra.
      + split; [discriminate|]. assert (0 < IZR (Z.pos m)) by (apply IZR_lt; lia). nra. }
  apply eq_true_iff_eq. rewrite (L a Fa), (L a' Fa'), Ea. split; intros; nra.
Qed.
Lemma tp_zero e s : tp e (S754_zero s) (S754_zero s).
Proof. repeat split. unfold val; cbn. ring. Qed.
Lemma tp_one : tp 0 (sf_one prec) (sf_one prec).
Proof. repeat split; try apply vf_one. change (bpow radix2 0) with 1. ring. Qed.
End Scale.
