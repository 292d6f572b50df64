(** * Simple sufficient conditions for PropFixedCorrect.v *)
From Coq Require Import ZArith QArith Reals Qreals Lia Lra Psatz.
From Verif Require Import Prelude Spec Matrix Filter Extended SpecFilter FixedNum SpecFixed SpecFixedRange SpecReal SpecSolve SpecFixedSolve SpecFixedInv SpecCorrect SpecFixedCorrect FixedCorrect SpecFixedModerate RealInverse.
Open Scope R_scope.

Lemma fx_w_pos (frac : Z) : (0 <= frac)%Z -> 0 < fx_w frac.
Proof.
  intros Hf. unfold fx_w, ulp. replace 0 with (Q2R 0) by (unfold Q2R; cbn; lra). apply Qlt_Rlt. apply Qlt_shift_div_l; [|ring_simplify; reflexivity].
  replace (0%Q) with (inject_Z 0) by reflexivity. rewrite <- Zlt_Qlt. apply Z.pow_pos_nonneg; lia.
Qed.

Section Mod.
Variables (bits frac : Z) (n m : nat) (B lam : R).
Hypothesis Hfrac : (0 <= frac)%Z.
Hypothesis Hn : (1 <= n)%nat.
Hypothesis Hm : (1 <= m)%nat.
Hypothesis HnB : INR n <= B.
Hypothesis HmB : INR m <= B.
Hypothesis Hl0 : 0 < lam.
Hypothesis Hw : 128 * B ^ 7 * fx_w frac <= lam.
Hypothesis Hl : lam <= 1.
Hypothesis Hlim : 64 * B ^ 6 / lam ^ 2 < fx_limit bits frac.
Notation w := (fx_w frac).
Let D := mk_corr B B B B B lam.
Let il := / lam.

Lemma n1 : 1 <= INR n. Proof. apply le_INR in Hn. exact Hn. Qed.
Lemma m1 : 1 <= INR m. Proof. apply le_INR in Hm. exact Hm. Qed.
Lemma B1 : 1 <= B. Proof. pose proof n1; lra. Qed.
Lemma w0 : 0 < w. Proof. apply fx_w_pos, Hfrac. Qed.
Lemma il1 : 1 <= il.
Proof. unfold il. rewrite <- Rinv_1. apply Rinv_le_contravar; lra. Qed.
Lemma il_lam : il * lam = 1. Proof. unfold il. field. lra. Qed.
Lemma wl : 128 * B ^ 7 * w * il <= 1.
Proof. pose proof il1. pose proof il_lam. rewrite <- H0. rewrite (Rmult_comm il lam). apply Rmult_le_compat_r; lra. Qed.
(** monomials *)
Lemma mono a b c d : (a <= b)%nat -> (c <= d)%nat -> B ^ a * il ^ c <= B ^ b * il ^ d.
Proof.
  intros Hab Hcd. pose proof B1. pose proof il1. apply Rmult_le_compat; try (apply pow_le; lra); apply Rle_pow; first [lra|lia].
Qed.
Lemma mono_pos a c : 1 <= B ^ a * il ^ c.
Proof. pose proof (mono 0 a 0 c (Nat.le_0_l _) (Nat.le_0_l _)). cbn in H. lra. Qed.
Lemma small : 128 * w <= 1.
Proof.
  pose proof wl as H. pose proof (mono_pos 7 1) as H2. pose proof w0. cbn [pow] in H2. rewrite Rmult_1_r in H2.
  replace (128 * B ^ 7 * w * il) with (128 * w * (B ^ 7 * il)) in H by ring. cbn [pow] in *. nra.
Qed.
(** [x <= k M] *)
Ltac pr := change (cd_rho D) with B; change (cd_p D) with B; change (cd_r D) with B; change (cd_x D) with B; change (cd_z D) with B; change (cd_lam D) with lam.
Lemma serr : 0 <= fc_s_err frac n D <= 2 * B ^ 2 * w.
Proof.
  unfold fc_s_err. pr. pose proof w0. pose proof n1. pose proof B1. split; [apply Rmult_le_pos; [apply Rmult_le_pos|]; lra|].
  replace (INR n * w * (1 + B)) with (w * (INR n * (1 + B))) by ring. replace (2 * B ^ 2 * w) with (w * (B * (2 * B))) by ring.
  apply Rmult_le_compat_l; [lra|]. apply Rmult_le_compat; lra.
Qed.
Lemma stop : 0 <= fc_s_top frac n D <= 3 * B ^ 3.
Proof.
  pose proof serr as H. unfold fc_s_top. pr. pose proof small. pose proof w0. pose proof B1.
  assert (2 * B ^ 2 * w <= B ^ 2 * 1). { replace (2 * B ^ 2 * w) with (B ^ 2 * (2 * w)) by ring. apply Rmult_le_compat_l; [apply pow_le; lra|lra]. }
  assert (B ^ 2 <= B ^ 3) by (apply Rle_pow; [lra|lia]). assert (B ^ 1 <= B ^ 3) by (apply Rle_pow; [lra|lia]). cbn [pow] in *. nra.
Qed.
Lemma tau : 0 <= fx_tau frac m (fc_s_top frac n D) <= 4 * B ^ 3.
Proof.
  pose proof stop as H. unfold fx_tau. pose proof small. pose proof w0. pose proof m1. pose proof B1.
  assert (B ^ 1 <= B ^ 3) by (apply Rle_pow; [lra|lia]). cbn [pow] in *. nra.
Qed.
Lemma eps : 0 <= fx_eps frac m (fc_s_top frac n D) <= 26 * B ^ 6 * w.
Proof.
  pose proof tau as [T0 T]. unfold fx_eps. set (t := fx_tau _ _ _) in *. pose proof w0. pose proof m1. pose proof B1.
  assert (1 <= B ^ 3). { pose proof (Rle_pow B 0 3 H1 ltac:(lia)). cbn [pow] in *. lra. }
  assert (E : 0 <= (1 + t) ^ 2 <= 25 * B ^ 6).
  { split; [apply pow2_ge_0|]. replace (25 * B ^ 6) with ((5 * B ^ 3) ^ 2) by ring. apply pow_incr. lra. }
  assert (B ^ 1 <= B ^ 6) by (apply Rle_pow; [lra|lia]). rewrite pow_1 in H3.
  split; [apply Rmult_le_pos; lra|]. apply Rmult_le_compat_r; lra.
Qed.
Lemma rho_ : 0 <= fx_rho frac m (fc_s_top frac n D) <= 14 * B ^ 3 * w.
Proof.
  pose proof tau as [T0 T]. unfold fx_rho. set (t := fx_tau _ _ _) in *. pose proof w0. pose proof m1. pose proof B1.
  assert (B ^ 1 <= B ^ 3) by (apply Rle_pow; [lra|lia]). rewrite pow_1 in H2.
  split; [apply Rmult_le_pos; lra|]. apply Rmult_le_compat_r; lra.
Qed.
Lemma we : 0 <= fc_w_err frac n m D <= 448 * (B ^ 7 * w * il ^ 2).
Proof.
  pose proof rho_ as [R0 R1]. pose proof eps as [E0 E1]. pose proof serr as [S0 S1]. unfold fc_w_err, fx_inv_err. pr.
  set (r := fx_rho _ _ _) in *. set (e := fx_eps _ _ _) in *. set (s := fc_s_err _ _ _) in *.
  pose proof w0. pose proof m1. pose proof B1. pose proof il1 as I1.
  match goal with |- context [sqrt ?a] => assert (Q : 0 <= sqrt a <= 28 * (B * il ^ 2)) end.
  { split; [apply sqrt_pos|]. assert (0 <= 28 * (B * il ^ 2)). { pose proof (mono_pos 1 2). rewrite pow_1 in H2. lra. }
    rewrite <- (sqrt_square (28 * (B * il ^ 2))) by assumption. apply sqrt_le_1_alt.
    replace (8 * (INR m + 1) / lam) with (8 * (INR m + 1) * il) by (unfold il; field; lra).
    replace (16 * INR m / lam ^ 2) with (16 * INR m * il ^ 2) by (unfold il; field; lra).
    replace (720 / lam ^ 3) with (720 * il ^ 3) by (unfold il; field; lra).
    pose proof (mono 1 2 1 4 ltac:(lia) ltac:(lia)) as A1. pose proof (mono 1 2 2 4 ltac:(lia) ltac:(lia)) as A2. pose proof (mono 0 2 3 4 ltac:(lia) ltac:(lia)) as A3.
    rewrite ?pow_O, ?pow_1 in A1, A2, A3. pose proof (pow_lt il 2 ltac:(lra)). pose proof (pow_lt il 3 ltac:(lra)).
    assert ((INR m + 1) * il <= 2 * (B * il)). { replace (2 * (B * il)) with ((2 * B) * il) by ring. apply Rmult_le_compat_r; lra. }
    assert (INR m * il ^ 2 <= B * il ^ 2) by (apply Rmult_le_compat_r; lra).
    replace (28 * (B * il ^ 2) * (28 * (B * il ^ 2))) with (784 * (B ^ 2 * il ^ 4)) by ring. lra. }
  set (q := sqrt _) in *.
  replace (2 * INR m * (s + e) / lam ^ 2) with (INR m * (2 * (s + e)) * il ^ 2) by (unfold il; field; lra).
  assert (P1 : r * q <= 14 * B ^ 3 * w * (28 * (B * il ^ 2))) by (apply Rmult_le_compat; lra).
  assert (B2 : B ^ 2 <= B ^ 6) by (apply Rle_pow; [lra|lia]).
  assert (SE : 2 * (s + e) <= 56 * B ^ 6 * w). { assert (B ^ 2 * w <= B ^ 6 * w) by (apply Rmult_le_compat_r; lra). lra. }
  pose proof (pow_lt il 2 ltac:(lra)) as I2.
  assert (P2 : INR m * (2 * (s + e)) * il ^ 2 <= B * (56 * B ^ 6 * w) * il ^ 2).
  { apply Rmult_le_compat_r; [lra|]. apply Rmult_le_compat; lra. }
  split. { apply Rplus_le_le_0_compat; [apply Rmult_le_pos; lra|]. apply Rmult_le_pos; [|lra]. apply Rmult_le_pos; lra. }
  assert (P3 : B ^ 4 * (w * il ^ 2) <= B ^ 7 * (w * il ^ 2)). { apply Rmult_le_compat_r; [apply Rmult_le_pos; lra|apply Rle_pow; [lra|lia]]. }
  replace (14 * B ^ 3 * w * (28 * (B * il ^ 2))) with (392 * (B ^ 4 * (w * il ^ 2))) in P1 by ring.
  replace (B * (56 * B ^ 6 * w) * il ^ 2) with (56 * (B ^ 7 * (w * il ^ 2))) in P2 by ring.
  replace (448 * (B ^ 7 * w * il ^ 2)) with (448 * (B ^ 7 * (w * il ^ 2))) by ring. lra.
Qed.
Lemma we5 : fc_w_err frac n m D <= 5 * il.
Proof.
  pose proof we as [_ H]. pose proof wl as L. pose proof il1. pose proof w0. pose proof B1. pose proof (pow_lt B 7 ltac:(lra)).
  replace (448 * (B ^ 7 * w * il ^ 2)) with (448 / 128 * (128 * B ^ 7 * w * il) * il) in H by field.
  set (a := 128 * B ^ 7 * w * il) in *. assert (448 / 128 * a * il <= 5 * il) by (apply Rmult_le_compat_r; lra). lra.
Qed.
Lemma sitop : 0 <= fc_si_top frac n m D <= 6 * il.
Proof. pose proof we as [H _]. pose proof we5. unfold fc_si_top. pr. fold il. pose proof il1. lra. Qed.
Lemma wle a c d : (c <= d)%nat -> (a <= 7)%nat -> 128 * (B ^ a * w * il ^ (S c)) <= il ^ d.
Proof.
  intros Hc Ha. pose proof wl as L. pose proof il1. pose proof w0. pose proof B1.
  assert (B ^ a * (w * il) <= B ^ 7 * (w * il)) by (apply Rmult_le_compat_r; [apply Rmult_le_pos; lra|apply Rle_pow; [lra|lia]]).
  assert (il ^ c <= il ^ d) by (apply Rle_pow; [lra|lia]). pose proof (pow_lt il c ltac:(lra)).
  replace (128 * (B ^ a * w * il ^ S c)) with (128 * (B ^ a * (w * il)) * il ^ c) by (cbn [pow]; ring).
  apply Rle_trans with (1 * il ^ c); [|lra]. apply Rmult_le_compat_r; lra.
Qed.
Lemma ytop : 0 <= fc_y_top frac n D <= 3 * B ^ 2.
Proof.
  unfold fc_y_top, fc_y_err. pr. pose proof small. pose proof w0. pose proof n1. pose proof B1. cbn [pow]. rewrite Rmult_1_r. split; nra.
Qed.
Lemma kerr : 0 <= fc_k_err frac n m D <= 456 * (B ^ 10 * w * il ^ 2).
Proof.
  pose proof we as [W0 W1]. pose proof sitop as [S0 S1]. unfold fc_k_err. pr. set (s := fc_si_top _ _ _ _) in *. set (e := fc_w_err _ _ _ _) in *.
  pose proof w0. pose proof n1. pose proof m1. pose proof B1. pose proof il1 as I1. pose proof (pow_lt il 2 ltac:(lra)) as I2.
  assert (A1 : 0 <= INR n * w * s <= B * w * (6 * il)). { split; [apply Rmult_le_pos; [apply Rmult_le_pos|]; lra|]. apply Rmult_le_compat; try lra; [apply Rmult_le_pos; lra|apply Rmult_le_compat_r; lra]. }
  assert (A2 : 0 <= B * B * e <= B * B * (448 * (B ^ 7 * w * il ^ 2))). { split; [apply Rmult_le_pos; [apply Rmult_le_pos|]; lra|]. apply Rmult_le_compat_l; [apply Rmult_le_pos; lra|lra]. }
  split; [apply Rmult_le_pos; lra|].
  apply Rle_trans with (B * (w + B * w * (6 * il) + B * B * (448 * (B ^ 7 * w * il ^ 2)))); [apply Rmult_le_compat; lra|].
  pose proof (mono 1 10 0 2 ltac:(lia) ltac:(lia)) as M1. pose proof (mono 2 10 1 2 ltac:(lia) ltac:(lia)) as M2. rewrite ?pow_O, ?pow_1 in M1, M2.
  pose proof (Rmult_le_compat_r w _ _ ltac:(lra) M1). pose proof (Rmult_le_compat_r w _ _ ltac:(lra) M2).
  replace (B * (w + B * w * (6 * il) + B * B * (448 * (B ^ 7 * w * il ^ 2)))) with (B * 1 * w + 6 * (B ^ 2 * il * w) + 448 * (B ^ 10 * il ^ 2 * w)) by ring.
  replace (456 * (B ^ 10 * w * il ^ 2)) with (456 * (B ^ 10 * il ^ 2 * w)) by ring.
  pose proof (mono_pos 10 2). assert (0 <= B ^ 10 * il ^ 2 * w) by (apply Rmult_le_pos; lra). lra.
Qed.
Lemma kerr5 : fc_k_err frac n m D <= 5 * (B ^ 3 * il).
Proof.
  pose proof kerr as [_ H]. pose proof (wle 7 1 1 (le_n _) (le_n _)) as L. rewrite pow_1 in L. pose proof B1. pose proof (pow_lt B 3 ltac:(lra)). pose proof il1.
  replace (456 * (B ^ 10 * w * il ^ 2)) with (456 / 128 * (B ^ 3 * (128 * (B ^ 7 * w * il ^ 2)))) in H by field.
  pose proof (Rmult_le_compat_l (B ^ 3) _ _ ltac:(lra) L). assert (0 <= B ^ 3 * il) by (apply Rmult_le_pos; lra). lra.
Qed.
Lemma kexact : 0 <= k_exact m D <= B ^ 3 * il.
Proof.
  unfold k_exact. pr. fold il. pose proof m1. pose proof B1. pose proof il1.
  assert (0 <= B * B * il) by (apply Rmult_le_pos; [apply Rmult_le_pos|]; lra).
  split; [apply Rmult_le_pos; lra|]. replace (B ^ 3 * il) with (B * (B * B * il)) by ring. apply Rmult_le_compat_r; lra.
Qed.
Lemma ktop : 0 <= fc_k_top frac n m D <= 6 * (B ^ 3 * il).
Proof. pose proof kexact. pose proof kerr as [H1 _]. pose proof kerr5. unfold fc_k_top. lra. Qed.

(** the hypotheses hold *)
Lemma lim_mono k a c : k <= 64 -> (a <= 6)%nat -> (c <= 2)%nat -> k * (B ^ a * il ^ c) < fx_limit bits frac.
Proof.
  intros Hk Ha Hc. replace (64 * B ^ 6 / lam ^ 2) with (64 * (B ^ 6 * il ^ 2)) in Hlim by (unfold il; field; lra).
  pose proof (mono a 6 c 2 Ha Hc). pose proof (mono_pos a c). apply Rle_lt_trans with (2 := Hlim).
  apply Rle_trans with (64 * (B ^ a * il ^ c)); [apply Rmult_le_compat_r; lra|lra].
Qed.
Lemma mod_ready_y y : 0 <= y <= 3 * B ^ 2 -> fc_ready_y bits frac n m D y.
Proof.
  intros [Y0 Y1]. pose proof w0. pose proof n1. pose proof m1. pose proof B1. pose proof il1 as I1. pose proof small as SM.
  pose proof stop as [T0 T1]. pose proof tau as [U0 U1]. pose proof eps as [E0 E1]. pose proof rho_ as [R0 R1]. pose proof sitop as [S0 S1]. pose proof ktop as [K0 K1].
  pose proof (pow_lt B 3 ltac:(lra)) as B3. pose proof (pow_lt B 6 ltac:(lra)) as B6.
  assert (WL : 128 * (B ^ 7 * w) <= lam) by lra.
  unfold fc_ready_y, fx_inv_ready, fx_ch_ready. pr.
  set (t := fx_tau _ _ _) in *. set (e := fx_eps _ _ _) in *. set (r := fx_rho _ _ _) in *. set (si := fc_si_top _ _ _ _) in *. set (k := fc_k_top _ _ _ _) in *.
  assert (MB : 0 <= INR m * (k * y) <= B * (6 * (B ^ 3 * il) * (3 * B ^ 2))). { assert (0 <= k * y) by (apply Rmult_le_pos; lra). split; [apply Rmult_le_pos; lra|]. apply Rmult_le_compat; try lra. apply Rmult_le_compat; lra. }
  assert (MW : 0 <= INR m * w <= B). { split; [apply Rmult_le_pos; lra|]. replace B with (B * 1) by ring. apply Rmult_le_compat; lra. }
  assert (NW : 0 <= INR n * w <= B). { split; [apply Rmult_le_pos; lra|]. replace B with (B * 1) by ring. apply Rmult_le_compat; lra. }
  assert (BB : B <= B * B). { replace B with (B * 1) at 1 by ring. apply Rmult_le_compat_l; lra. }
  assert (RM : 4 * INR m * r <= lam).
  { apply Rle_trans with (4 * B * (14 * B ^ 3 * w)). { apply Rmult_le_compat; lra. }
    pose proof (Rle_pow B 4 7 ltac:(lra) ltac:(lia)) as P4. pose proof (Rmult_le_compat_r w _ _ ltac:(lra) P4).
    replace (4 * B * (14 * B ^ 3 * w)) with (56 * (B ^ 4 * w)) by ring. assert (0 <= B ^ 7 * w) by (apply Rmult_le_pos; [apply pow_le|]; lra). lra. }
  split; [|split; [|split; [|split; [|split; [|split]]]]].
  - split; [|split; [|split]].
    + split; [lra|split].
      * apply Rle_trans with (2 * (2 * B) * (26 * B ^ 6 * w)). { apply Rmult_le_compat; lra. }
        replace (2 * (2 * B) * (26 * B ^ 6 * w)) with (104 * (B ^ 7 * w)) by ring. assert (0 <= B ^ 7 * w) by (apply Rmult_le_pos; [apply pow_le|]; lra). lra.
      * replace (1 + 2 / lam) with (1 + 2 * il) by (unfold il; field; lra).
        assert (1 <= B ^ 3) by (pose proof (mono_pos 3 0); rewrite pow_O in *; lra).
        apply Rle_lt_trans with (2 * (5 * B ^ 3) * (3 * il)). { apply Rmult_le_compat; lra. }
        replace (2 * (5 * B ^ 3) * (3 * il)) with (30 * (B ^ 3 * il ^ 1)) by ring. apply lim_mono; first [lra|lia].
    + lra.
    + exact RM.
    + assert (MT : INR m * t <= B * (4 * B ^ 3)) by (apply Rmult_le_compat; lra).
      replace (9 / lam) with (9 * il) by (unfold il; field; lra). replace (36 / lam ^ 2) with (36 * il ^ 2) by (unfold il; field; lra).
      pose proof (mono 0 4 1 2 ltac:(lia) ltac:(lia)) as M1. pose proof (mono 0 4 2 2 ltac:(lia) ltac:(lia)) as M2. pose proof (mono 4 4 0 2 ltac:(lia) ltac:(lia)) as M3. pose proof (mono_pos 4 2) as M4.
      rewrite ?pow_O, ?pow_1 in M1, M2, M3. replace (B * (4 * B ^ 3)) with (4 * B ^ 4) in MT by ring.
      apply Rle_lt_trans with (55 * (B ^ 4 * il ^ 2)); [lra|]. apply lim_mono; first [lra|lia].
  - apply Rle_lt_trans with (3 * (B ^ 3 * il ^ 0)); [cbn [pow] in *; lra|]. apply lim_mono; first [lra|lia].
  - apply Rle_lt_trans with (2 * (B ^ 2 * il ^ 0)); [cbn [pow] in *; lra|]. apply lim_mono; first [lra|lia].
  - apply Rle_lt_trans with (3 * (B ^ 2 * il ^ 0)); [cbn [pow] in *; lra|]. apply lim_mono; first [lra|lia].
  - assert (A : 0 <= (B * B + INR n * w) * si <= (2 * (B * B)) * (6 * il)). { split; [apply Rmult_le_pos; lra|]. apply Rmult_le_compat; lra. }
    assert (C : INR m * ((B * B + INR n * w) * si) <= B * ((2 * (B * B)) * (6 * il))) by (apply Rmult_le_compat; lra).
    pose proof (mono 1 3 0 1 ltac:(lia) ltac:(lia)) as M1. rewrite ?pow_O, ?pow_1 in M1.
    apply Rle_lt_trans with (13 * (B ^ 3 * il ^ 1)); [|apply lim_mono; first [lra|lia]]. rewrite pow_1.
    replace (B * (2 * (B * B) * (6 * il))) with (12 * (B ^ 3 * il)) in C by ring. lra.
  - pose proof (mono 1 6 0 1 ltac:(lia) ltac:(lia)) as M1. rewrite ?pow_O, ?pow_1 in M1. replace (B * (6 * (B ^ 3 * il) * (3 * B ^ 2))) with (18 * (B ^ 6 * il)) in MB by ring.
    apply Rle_lt_trans with (20 * (B ^ 6 * il ^ 1)); [|apply lim_mono; first [lra|lia]]. rewrite pow_1. lra.
  - assert (A : 0 <= k * (B * B + INR n * w) <= 6 * (B ^ 3 * il) * (2 * (B * B))). { split; [apply Rmult_le_pos; lra|]. apply Rmult_le_compat; lra. }
    assert (C : INR m * (k * (B * B + INR n * w)) <= B * (6 * (B ^ 3 * il) * (2 * (B * B)))) by (apply Rmult_le_compat; lra).
    pose proof (mono 1 6 0 1 ltac:(lia) ltac:(lia)) as M1. rewrite ?pow_O, ?pow_1 in M1. replace (B * (6 * (B ^ 3 * il) * (2 * (B * B)))) with (12 * (B ^ 6 * il)) in C by ring.
    apply Rle_lt_trans with (14 * (B ^ 6 * il ^ 1)); [|apply lim_mono; first [lra|lia]]. rewrite pow_1. lra.
Qed.
Lemma mod_x_err y ye : 0 <= y <= 3 * B ^ 2 -> 0 <= ye <= B * w -> fc_x_err_y frac n m D y ye <= 2048 * B ^ 13 * w / lam ^ 2.
Proof.
  intros [Y0 Y1] [Z0 Z1]. pose proof w0. pose proof m1. pose proof B1. pose proof il1. pose proof kerr as [K0 K1]. pose proof kexact as [X0 X1]. unfold fc_x_err_y.
  set (k := fc_k_err _ _ _ _) in *. set (x := k_exact _ _) in *.
  assert (A : 0 <= k * y <= 456 * (B ^ 10 * w * il ^ 2) * (3 * B ^ 2)). { split; [apply Rmult_le_pos; lra|]. apply Rmult_le_compat; lra. }
  assert (C : 0 <= x * ye <= B ^ 3 * il * (B * w)). { split; [apply Rmult_le_pos; lra|]. apply Rmult_le_compat; lra. }
  apply Rle_trans with (B * (w + 456 * (B ^ 10 * w * il ^ 2) * (3 * B ^ 2) + B ^ 3 * il * (B * w))). { apply Rmult_le_compat; lra. }
  pose proof (mono 1 13 0 2 ltac:(lia) ltac:(lia)) as M1. pose proof (mono 5 13 1 2 ltac:(lia) ltac:(lia)) as M2. rewrite ?pow_O, ?pow_1 in M1, M2.
  pose proof (Rmult_le_compat_r w _ _ ltac:(lra) M1). pose proof (Rmult_le_compat_r w _ _ ltac:(lra) M2). pose proof (mono_pos 13 2). assert (0 <= B ^ 13 * il ^ 2 * w) by (apply Rmult_le_pos; lra).
  replace (2048 * B ^ 13 * w / lam ^ 2) with (2048 * (B ^ 13 * il ^ 2 * w)) by (unfold il; field; lra).
  replace (B * (w + 456 * (B ^ 10 * w * il ^ 2) * (3 * B ^ 2) + B ^ 3 * il * (B * w))) with (B * 1 * w + 1368 * (B ^ 13 * il ^ 2 * w) + B ^ 5 * il * w) by ring. lra.
Qed.
Lemma mod_P_err : fc_P_err frac n m D <= 512 * B ^ 13 * w / lam ^ 2.
Proof.
  pose proof w0. pose proof n1. pose proof m1. pose proof B1. pose proof il1. pose proof kerr as [K0 K1]. pose proof ktop as [X0 X1]. unfold fc_P_err. pr.
  set (k := fc_k_err _ _ _ _) in *. set (x := fc_k_top _ _ _ _) in *.
  assert (A : 0 <= k * (B * B) <= 456 * (B ^ 10 * w * il ^ 2) * (B * B)). { split; [apply Rmult_le_pos; [|apply Rmult_le_pos]; lra|]. apply Rmult_le_compat_r; [apply Rmult_le_pos|]; lra. }
  assert (NW : 0 <= INR n * w <= B * w). { split; [apply Rmult_le_pos; lra|]. apply Rmult_le_compat_r; lra. }
  assert (C : 0 <= x * (INR n * w) <= 6 * (B ^ 3 * il) * (B * w)). { split; [apply Rmult_le_pos; lra|]. apply Rmult_le_compat; lra. }
  apply Rle_trans with (B * (w + 456 * (B ^ 10 * w * il ^ 2) * (B * B) + 6 * (B ^ 3 * il) * (B * w))). { apply Rmult_le_compat; lra. }
  pose proof (mono 1 13 0 2 ltac:(lia) ltac:(lia)) as M1. pose proof (mono 5 13 1 2 ltac:(lia) ltac:(lia)) as M2. rewrite ?pow_O, ?pow_1 in M1, M2.
  pose proof (Rmult_le_compat_r w _ _ ltac:(lra) M1). pose proof (Rmult_le_compat_r w _ _ ltac:(lra) M2). pose proof (mono_pos 13 2). assert (0 <= B ^ 13 * il ^ 2 * w) by (apply Rmult_le_pos; lra).
  replace (512 * B ^ 13 * w / lam ^ 2) with (512 * (B ^ 13 * il ^ 2 * w)) by (unfold il; field; lra).
  replace (B * (w + 456 * (B ^ 10 * w * il ^ 2) * (B * B) + 6 * (B ^ 3 * il) * (B * w))) with (B * 1 * w + 456 * (B ^ 13 * il ^ 2 * w) + 6 * (B ^ 5 * il * w)) by ring. lra.
Qed.
Lemma mod_k_err : fc_k_err frac n m D <= 512 * B ^ 10 * w / lam ^ 2.
Proof.
  pose proof kerr as [_ H]. pose proof w0. pose proof (mono_pos 10 2). assert (0 <= B ^ 10 * il ^ 2 * w) by (apply Rmult_le_pos; lra).
  replace (512 * B ^ 10 * w / lam ^ 2) with (512 * (B ^ 10 * il ^ 2 * w)) by (unfold il; field; lra). lra.
Qed.
Lemma mod_eig : cd_lam D + INR m * fc_s_err frac n D <= 2 * lam.
Proof.
  pr. pose proof serr as [H0 H1]. pose proof m1. pose proof B1. pose proof w0.
  assert (INR m * fc_s_err frac n D <= B * (2 * B ^ 2 * w)) by (apply Rmult_le_compat; lra).
  pose proof (Rle_pow B 3 7 ltac:(lra) ltac:(lia)) as P. pose proof (Rmult_le_compat_r w _ _ ltac:(lra) P).
  replace (B * (2 * B ^ 2 * w)) with (2 * (B ^ 3 * w)) in H4 by ring. assert (0 <= B ^ 7 * w) by (apply Rmult_le_pos; [apply pow_le|]; lra). lra.
Qed.
End Mod.

Lemma mod_model (bits frac : Z) (n m : nat) (B lam : R) (H P Rm : nat -> nat -> R) (x : nat -> R) : (0 <= frac)%Z -> (1 <= n)%nat -> (1 <= m)%nat -> 0 < lam ->
  fc_moderate bits frac n m B lam H P Rm x -> fc_model frac n m (mk_corr B B B B B lam) H P Rm x.
Proof.
  intros Hf Hn Hm Hl (HnB & HmB & A1 & A2 & A3 & A4 & E & (W1 & W2) & L). unfold fc_model. cbn [cd_rho cd_p cd_r cd_x cd_lam].
  split; [exact A1|]. split; [exact A2|]. split; [exact A3|]. split; [exact A4|].
  intros v. pose proof (mod_eig frac n m B lam Hf Hn Hm HnB HmB Hl W1) as T. cbn [cd_lam] in T. eapply Rle_trans; [|apply E].
  apply Rmult_le_compat_r; [|exact T]. clear; induction m as [|k IH]; cbn [rsum]; [lra|]. pose proof (Rle_0_sqr (v k)) as Q. unfold Rsqr in Q. lra.
Qed.

Theorem fx_correct_moderate : forall (bits frac : Z), (0 <= frac)%Z -> forall (c : cfg) (n m : nat) (o : observation Z) (f : kalman Z) (B lam : R), (1 <= n)%nat -> (1 <= m)%nat -> ob_valid c n m o -> kf_valid c n f -> 0 < lam ->
  let H := fcell frac n (ob_H o) in let P := fcell frac n (kf_P f) in let Rm := fcell frac m (ob_R o) in let z := fun i => fcell frac 1 (ob_z o) i 0 in let x := fun i => fcell frac 1 (kf_x f) i 0 in
  fc_moderate bits frac n m B lam H P Rm x -> (forall i, (i < m)%nat -> Rabs (z i) <= B) ->
  exists o' f', (forall oc da, correct c (fx_num bits frac oc da) n m o f = Ok (o', f')) /\
    forall W, inverse_of m (upper_of (inn_cov n H P Rm)) W ->
      let K := gain_of n m H P W in let y := innov_of n z H x in
      (forall i j, (i < n)%nat -> (j < m)%nat -> Rabs (fcell frac m (ob_K o') i j - K i j) <= 512 * B ^ 10 * fx_w frac / lam ^ 2) /\
      (forall i, (i < n)%nat -> Rabs (fcell frac 1 (kf_x f') i 0 - corr_x m K y x i) <= 2048 * B ^ 13 * fx_w frac / lam ^ 2) /\
      (forall i j, (i < n)%nat -> (j < n)%nat -> Rabs (fcell frac n (kf_P f') i j - corr_P n m K H P i j) <= 512 * B ^ 13 * fx_w frac / lam ^ 2).
Proof.
  intros bits frac Hf c n m o f B lam Hn Hm Vo Vf Hl H P Rm z x M Z. pose proof (mod_model _ _ _ _ _ _ _ _ _ _ Hf Hn Hm Hl M) as MM.
  destruct M as (HnB & HmB & _ & _ & _ & _ & _ & (W1 & W2) & L).
  pose proof (ytop frac n m B lam Hf Hn Hm HnB Hl W1 W2) as Y.
  assert (RD : fc_ready bits frac n m (mk_corr B B B B B lam)).
  { unfold fc_ready. apply mod_ready_y; assumption. }
  destruct (fx_correct_near bits frac Hf c n m o f (mk_corr B B B B B lam) Hn Hm Vo Vf) as (o' & f' & E & A).
  { split; [exact MM|]. cbn [cd_z]. exact Z. }
  { exact RD. }
  exists o', f'. split; [exact E|]. intros W HW. destruct (A W HW) as (A1 & A2 & A3). cbv zeta. split; [|split].
  - intros i j Hi Hj. eapply Rle_trans; [apply A1; assumption|]. apply mod_k_err; assumption.
  - intros i Hi. eapply Rle_trans; [apply A2; assumption|]. unfold fc_x_err. apply mod_x_err; try assumption.
    unfold fc_y_err. pose proof (fx_w_pos frac Hf). pose proof (le_INR _ _ Hn) as N1. cbn [INR] in N1. split; [apply Rmult_le_pos; lra|apply Rmult_le_compat_r; lra].
  - intros i j Hi Hj. eapply Rle_trans; [apply A3; assumption|]. apply mod_P_err; assumption.
Qed.

Theorem fx_correct_nl_moderate : forall (bits frac : Z), (0 <= frac)%Z -> forall (c : cfg) (n m : nat) (h : list Z -> list Z -> res (list Z)) (o : observation Z) (f : kalman Z) (out : list Z) (B lam : R),
  (1 <= n)%nat -> (1 <= m)%nat -> ob_valid c n m o -> kf_valid c n f -> h (kf_x f) (ob_y o) = Ok out -> valid c m 1 out -> 0 < lam ->
  let H := fcell frac n (ob_H o) in let P := fcell frac n (kf_P f) in let Rm := fcell frac m (ob_R o) in let x := fun i => fcell frac 1 (kf_x f) i 0 in
  let y := fun i => fcell frac 1 (ob_z o) i 0 - fcell frac 1 out i 0 in
  fc_moderate bits frac n m B lam H P Rm x -> (forall i, (i < m)%nat -> Rabs (y i) <= B) ->
  exists o' f', (forall oc da, correct_nonlinear c (fx_num bits frac oc da) n m h o f = Ok (o', f')) /\
    forall W, inverse_of m (upper_of (inn_cov n H P Rm)) W ->
      let K := gain_of n m H P W in
      (forall i j, (i < n)%nat -> (j < m)%nat -> Rabs (fcell frac m (ob_K o') i j - K i j) <= 512 * B ^ 10 * fx_w frac / lam ^ 2) /\
      (forall i, (i < n)%nat -> Rabs (fcell frac 1 (kf_x f') i 0 - corr_x m K y x i) <= 2048 * B ^ 13 * fx_w frac / lam ^ 2) /\
      (forall i j, (i < n)%nat -> (j < n)%nat -> Rabs (fcell frac n (kf_P f') i j - corr_P n m K H P i j) <= 512 * B ^ 13 * fx_w frac / lam ^ 2).
Proof.
  intros bits frac Hf c n m h o f out B lam Hn Hm Vo Vf Eh Vout Hl H P Rm x y M Z. pose proof (mod_model _ _ _ _ _ _ _ _ _ _ Hf Hn Hm Hl M) as MM.
  destruct M as (HnB & HmB & _ & _ & _ & _ & _ & (W1 & W2) & L).
  pose proof (le_INR _ _ Hn) as N1. cbn [INR] in N1. assert (HB : 1 <= B) by lra.
  assert (Y : 0 <= B <= 3 * B ^ 2). { split; [lra|]. cbn [pow]. nra. }
  destruct (fx_correct_nl_near bits frac Hf c n m h o f out (mk_corr B B B B B lam) Hn Hm Vo Vf Eh Vout) as (o' & f' & E & A).
  { exact MM. }
  { cbn [cd_z]. exact Z. }
  { cbn [cd_z]. apply mod_ready_y; assumption. }
  exists o', f'. split; [exact E|]. intros W HW. destruct (A W HW) as (A1 & A2 & A3). cbv zeta. split; [|split].
  - intros i j Hi Hj. eapply Rle_trans; [apply A1; assumption|]. apply mod_k_err; assumption.
  - intros i Hi. eapply Rle_trans; [apply A2; assumption|]. cbn [cd_z]. apply mod_x_err; try assumption.
    pose proof (fx_w_pos frac Hf). split; [lra|apply Rmult_le_pos; lra].
  - intros i j Hi Hj. eapply Rle_trans; [apply A3; assumption|]. apply mod_P_err; assumption.
Qed.

Theorem fx_correct_near_sym : forall (bits frac : Z), (0 <= frac)%Z -> forall (c : cfg) (n m : nat) (o : observation Z) (f : kalman Z) (B lam : R), (1 <= n)%nat -> (1 <= m)%nat -> ob_valid c n m o -> kf_valid c n f -> 0 < lam ->
  fc_moderate bits frac n m B lam (fcell frac n (ob_H o)) (fcell frac n (kf_P f)) (fcell frac m (ob_R o)) (fun i => fcell frac 1 (kf_x f) i 0) ->
  (forall i, (i < m)%nat -> Rabs (fcell frac 1 (ob_z o) i 0) <= B) -> sym_on n (fcell frac n (kf_P f)) ->
  exists o' f', (forall oc da, correct c (fx_num bits frac oc da) n m o f = Ok (o', f')) /\ forall i j, (i < n)%nat -> (j < n)%nat ->
    Rabs (fcell frac n (kf_P f') i j - fcell frac n (kf_P f') j i) <= 2 * (512 * B ^ 13 * fx_w frac / lam ^ 2).
Proof.
  intros bits frac Hf c n m o f B lam Hn Hm Vo Vf Hl M Z SP.
  destruct (fx_correct_moderate bits frac Hf c n m o f B lam Hn Hm Vo Vf Hl M Z) as (o' & f' & E & A). exists o', f'. split; [exact E|].
  destruct M as (_ & _ & _ & _ & _ & _ & EI & _).
  destruct (inverse_exists m _ (2 * lam) ltac:(lra) EI) as (W & HW). destruct (A W HW) as (_ & _ & G). clear A.
  intros i j Hi Hj. set (H := fcell frac n (ob_H o)) in *. set (P := fcell frac n (kf_P f)) in *. set (Rm := fcell frac m (ob_R o)) in *.
  assert (SW : sym_on m W). { eapply inverse_sym; [|exact HW]. intros p q Hp Hq. unfold upper_of. rewrite Nat.min_comm, Nat.max_comm. reflexivity. }
  pose proof (corr_sym n m H P W SP SW i j Hi Hj) as SC. pose proof (G i j Hi Hj) as G1. pose proof (G j i Hj Hi) as G2. rewrite <- SC in G2.
  set (v := corr_P n m (gain_of n m H P W) H P i j) in *. set (a := fcell frac n (kf_P f') i j) in *. set (b := fcell frac n (kf_P f') j i) in *.
  replace (a - b) with ((a - v) + - (b - v)) by ring. eapply Rle_trans; [apply Rabs_triang|]. rewrite Rabs_Ropp. lra.
Qed.
Theorem fx_correct_positive : forall (bits frac : Z), (0 <= frac)%Z -> forall (c : cfg) (n m : nat) (o : observation Z) (f : kalman Z) (B lam : R), (1 <= n)%nat -> (1 <= m)%nat -> ob_valid c n m o -> kf_valid c n f -> 0 < lam ->
  let H := fcell frac n (ob_H o) in let P := fcell frac n (kf_P f) in let Rm := fcell frac m (ob_R o) in
  fc_moderate bits frac n m B lam H P Rm (fun i => fcell frac 1 (kf_x f) i 0) -> (forall i, (i < m)%nat -> Rabs (fcell frac 1 (ob_z o) i 0) <= B) ->
  exists o' f' W, (forall oc da, correct c (fx_num bits frac oc da) n m o f = Ok (o', f')) /\ inverse_of m (upper_of (inn_cov n H P Rm)) W /\
    forall i, (i < n)%nat -> 512 * B ^ 13 * fx_w frac / lam ^ 2 < corr_P n m (gain_of n m H P W) H P i i -> exists v, cell n (kf_P f') i i = Some v /\ (0 < v)%Z.
Proof.
  intros bits frac Hf c n m o f B lam Hn Hm Vo Vf Hl H P Rm M Z.
  destruct (fx_correct_moderate bits frac Hf c n m o f B lam Hn Hm Vo Vf Hl M Z) as (o' & f' & E & A).
  destruct M as (_ & _ & _ & _ & _ & _ & EI & _).
  destruct (inverse_exists m _ (2 * lam) ltac:(lra) EI) as (W & HW). destruct (A W HW) as (_ & _ & G). clear A.
  exists o', f', W. split; [exact E|]. split; [exact HW|]. intros i Hi HG. specialize (G i i Hi Hi). fold H P in G.
  assert (G0 : 0 < fcell frac n (kf_P f') i i). { pose proof (Rle_abs (- (fcell frac n (kf_P f') i i - corr_P n m (gain_of n m H P W) H P i i))) as A. rewrite Rabs_Ropp in A. lra. }
  unfold fcell, qcell in G0. destruct (cell n (kf_P f') i i) as [v|]; [|unfold Q2R in G0; cbn in G0; lra]. exists v. split; [reflexivity|].
  replace 0 with (Q2R 0) in G0 by (unfold Q2R; cbn; lra). apply Rlt_Qlt in G0. unfold fval, Qlt in G0. cbn in G0.
  assert (D : (0 < 2 ^ frac)%Z) by (apply Z.pow_pos_nonneg; lia).
  destruct (2 ^ frac)%Z as [|p|p]; [lia| |lia]. cbn in G0. lia.
Qed.
