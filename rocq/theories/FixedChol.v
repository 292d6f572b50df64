(** * Fixed point: the Cholesky factor reproduces the matrix up to rounding *)
From Coq Require Import ZArith QArith Qabs Lia Lqa Psatz.
From Verif Require Import Prelude Spec SpecBits Matrix Filter SpecFilter Kernels FixedNum SpecFixed SpecFixedFactor NumSim BitsProof FixedProof FixedRange FixedScalar.
Open Scope Q_scope.

Section Chol.
Variables (frac : Z).
Hypothesis Hf : (0 <= frac)%Z.
Notation w := (ulp frac).
Notation v := (fval frac).
Notation B := (2 ^ frac)%Z.
Notation NU := (unlimited frac).
Notation q o := (match o with Some z => v z | None => 0 end).

Lemma subdot_bound K a f g r : subdot NU K a f g = Some r ->
  let e := v a - qsum K (fun k => q (f k) * q (g k)) in e <= v r /\ v r <= e + qn K * w.
Proof.
  cbv zeta. revert r. induction K as [|K IH]; intros r E; cbn [subdot qsum] in E |- *.
  - injection E as <-. change (qn 0) with 0. lra.
  - destruct (subdot NU K a f g) as [s|]; [|discriminate]. cbn [obind] in E. destruct (f K) as [x|]; [|discriminate]. destruct (g K) as [y|]; [|discriminate].
    cbn in E. injection E as <-. destruct (IH s eq_refl) as [I1 I2]. rewrite (fval_sub frac Hf), qn_S.
    pose proof (mul_down frac Hf x y). pose proof (mul_up frac Hf x y). lra.
Qed.

Variables (n : nat) (S L : nat -> nat -> option Z).
Notation a i j := (q (S i j)).
Notation l i j := (q (L i j)).

Lemma column_bound i : b_column NU n S L i -> q_column w n (fun i j => a i j) (fun i j => l i j) i.
Proof.
  intros (s & ll & d & B1 & B2 & B3 & B4 & B5 & B6). destruct (S i i) as [x|] eqn:Ex; [|discriminate]. cbn [obind] in B1.
  cbn in B2. apply Z.leb_gt in B2. cbn in B3. destruct (Z.ltb_spec s 0); [lia|]. injection B3 as <-. change (Z.sqrt (s * B)) with (fx_l frac s) in *.
  destruct (inv_facts frac Hf s B2) as (L0 & F1 & F2 & F3 & F4 & F5 & F6). cbn in B4.
  destruct (Z.eqb_spec (fx_l frac s) 0); [lia|]. injection B4 as <-. change (Z.quot (B * B) (fx_l frac s)) with (fx_r frac s) in *.
  destruct (subdot_bound i x _ _ s B1) as (I1 & I2). cbv beta in I1, I2. pose proof (wpos frac Hf) as Hw. pose proof (qn_pos i) as Hi.
  unfold q_column. rewrite B5. set (lv := v (fx_l frac s)) in *. set (dv := v (fx_r frac s)) in *. split; [lra|]. split.
  - cbn [qsum]. rewrite Ex, B5. fold lv. split; nra.
  - intros j Hj. destruct (B6 j Hj) as (E & _). unfold b_mul in E. destruct (S i j) as [y|] eqn:Ey; cbn [obind] in E; [|exfalso; apply (proj2 (B6 j Hj)); exact E].
    destruct (subdot NU i y (fun k => L i k) (fun k => L j k)) as [t|] eqn:Et; cbn [obind] in E; [|exfalso; apply (proj2 (B6 j Hj)); exact E].
    destruct (subdot_bound i y _ _ t Et) as (J1 & J2). cbv beta in J1, J2. cbn in E. cbn [qsum]. rewrite B5, E. fold lv.
    pose proof (mul_down frac Hf t (fx_r frac s)) as M1. pose proof (mul_up frac Hf t (fx_r frac s)) as M2. fold dv in M1, M2. set (p := v (t * fx_r frac s / B)) in *.
    set (X := qsum i (fun k => l i k * l j k)) in *. pose proof (qsum_abs i (fun k => l i k * l j k)) as HX. fold X in HX.
    set (Y := qsum i (fun k => Qabs (l i k * l j k))) in *.
    assert (HT : Qabs (v t) <= Qabs (v y) + Y + qn i * w).
    { apply Qabs_le_iff in HX. pose proof (Qabs_bd (v y)). apply Qabs_le_iff. split; lra. }
    assert (HP : Qabs (v t - p * lv) <= (1 + Qabs (v t)) * (lv * w)).
    { assert (P1 : p * lv <= v t * dv * lv) by nra. assert (P2 : v t * dv * lv <= p * lv + w * lv) by nra.
      pose proof (Qabs_bd (v t)) as Ht. pose proof (Qabs_nonneg (v t)) as Ht0. set (T := Qabs (v t)) in *. set (z := dv * lv) in *.
      assert (P3 : Qabs (v t * (1 - z)) <= T * (lv * w)).
      { rewrite Qabs_Qmult. apply Qmult_le_compat_nonneg; [unfold T; split; [apply Qabs_nonneg|lra]|split; [apply Qabs_nonneg|]]. apply Qabs_le_iff. clearbody z. split; nra. }
      apply Qabs_le_iff in P3. assert (E1 : v t * dv * lv == v t * z) by (unfold z; ring). rewrite E1 in P1, P2.
      apply Qabs_le_iff. clearbody z T. split; lra. }
    setoid_replace (v y - (X + lv * p)) with (v y - X - v t + (v t - p * lv)) by ring.
    eapply Qle_trans; [apply Qabs_triangle|]. apply Qplus_le_compat.
    + apply Qabs_le_iff. split; lra.
    + eapply Qle_trans; [exact HP|]. apply Qmult_le_compat_r; [lra|]. nra.
Qed.

(** a refused pivot *)
Lemma refused_bound i x s : S i i = Some x -> subdot NU i x (fun k => L i k) (fun k => L i k) = Some s -> (s <= 0)%Z ->
  a i i <= qsum i (fun k => l i k * l i k).
Proof.
  intros Ex Es Hs. destruct (subdot_bound i x _ _ s Es) as (I1 & I2). cbv beta in I1, I2. rewrite Ex.
  assert (v s <= 0) by (rewrite <- (v_0 frac Hf); apply (proj2 (fval_le frac Hf _ _)), Hs). lra.
Qed.
End Chol.

Theorem fx_factor (c : cfg) bits frac : (0 <= frac)%Z -> forall n (A L : list Z) b, (1 <= n)%nat -> valid c n n A ->
  cholesky_decompose_lower c (fx_num bits frac true true) n n A = Ok (b, L) ->
  if b then (forall i, (i < n)%nat -> q_column (ulp frac) n (qcell frac n A) (qcell frac n L) i) /\ (forall i j, (i < j < n)%nat -> cell n L i j = Some 0%Z)
  else exists i, (i < n)%nat /\ (forall k, (k < i)%nat -> q_column (ulp frac) n (qcell frac n A) (qcell frac n L) k) /\
         qcell frac n A i i <= qsum i (fun k => qcell frac n L i k * qcell frac n L i k).
Proof.
  intros Hf n A L b Hn V E. apply (nsim_ok _ _ _ (nsim_cholesky c (fx_num bits frac true true) (unlimited frac) (fx_unlimited bits frac) n n A)) in E.
  destruct (cholesky_bits c _ n A b L Hn V E) as (_ & HB). destruct b.
  - destruct HB as (HB & HZ). split; [|exact HZ]. intros i Hi. apply column_bound; auto.
  - destruct HB as (i & s & d & Hi & HB & Es & Hle & _). exists i. split; [exact Hi|]. split; [intros k Hk; apply column_bound; auto|].
    destruct (cell n A i i) as [x|] eqn:Ex; [|discriminate]. cbn [obind] in Es. cbn in Hle. apply Z.leb_le in Hle.
    eapply refused_bound; eauto.
Qed.
