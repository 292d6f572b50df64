(** * Corrections with several measured components: bounds in simple numbers *)
From Coq Require Import ZArith Reals Lia Lra Psatz.
From Flocq Require Import Core BinarySingleNaN.
From Verif Require Import Prelude Spec SpecBits Matrix Filter SpecFilter FloatNum SpecFloats SpecReal SpecRange SpecSolve SpecCorrect FloatFlocq FloatOps FloatErr FloatInt FloatPredict FloatFactor FloatRange RealSchur FloatCorrect RealInverse.
Import SpecFloat.
Open Scope R_scope.

Lemma pow_lin u k : 0 <= u -> INR k * u <= / 2 -> (1 + u) ^ k <= 1 + 2 * INR k * u.
Proof.
  intros Hu. induction k as [|k IH]; intros H; [cbn; lra|]. rewrite S_INR in *. cbn [pow]. pose proof (pos_INR k). assert (INR k * u <= / 2) by nra. specialize (IH H1).
  assert ((1 + u) * (1 + u) ^ k <= (1 + u) * (1 + 2 * INR k * u)) by (apply Rmult_le_compat_l; lra). nra.
Qed.

Section Mono.
Variables (B q : R).
Hypotheses (HB : 1 <= B) (Hq : 1 <= q).
Definition mo (i a : nat) : R := B ^ i * q ^ a.
Lemma mo_mul i a j b : mo i a * mo j b = mo (i + j) (a + b). Proof. unfold mo. rewrite !pow_add. ring. Qed.
Lemma mo_pos i a : 1 <= mo i a. Proof. unfold mo. pose proof (pow_R1_Rle B i HB). pose proof (pow_R1_Rle q a Hq). nra. Qed.
Lemma mo_le i a j b : (i <= j)%nat -> (a <= b)%nat -> mo i a <= mo j b.
Proof.
  intros H1 H2. replace j with (i + (j - i))%nat by lia. replace b with (a + (b - a))%nat by lia. rewrite <- mo_mul. pose proof (mo_pos i a). pose proof (mo_pos (j - i) (b - a)). nra.
Qed.
Definition bd (x c : R) (i a : nat) : Prop := 0 <= x <= c * mo i a.
Lemma bd_const k : 0 <= k -> bd k k 0 0. Proof. intros H. unfold bd, mo. cbn. lra. Qed.
Lemma bd_mul x y c d i j a b : bd x c i a -> bd y d j b -> bd (x * y) (c * d) (i + j) (a + b).
Proof.
  intros (H1 & H2) (H3 & H4). split; [apply Rmult_le_pos; assumption|]. rewrite <- mo_mul. replace (c * d * (mo i a * mo j b)) with (c * mo i a * (d * mo j b)) by ring. apply Rmult_le_compat; assumption.
Qed.
Lemma bd_nn x c i a : bd x c i a -> 0 <= c. Proof. intros (H1 & H2). pose proof (mo_pos i a). nra. Qed.
Lemma bd_add x y c d i j a b : bd x c i a -> bd y d j b -> bd (x + y) (c + d) (Nat.max i j) (Nat.max a b).
Proof.
  intros H1 H2. pose proof (bd_nn _ _ _ _ H1) as C. pose proof (bd_nn _ _ _ _ H2) as D. destruct H1 as (H1 & H3), H2 as (H2 & H4). split; [lra|].
  pose proof (mo_le i a (Nat.max i j) (Nat.max a b) ltac:(lia) ltac:(lia)) as L1. pose proof (mo_le j b (Nat.max i j) (Nat.max a b) ltac:(lia) ltac:(lia)) as L2.
  assert (c * mo i a <= c * mo (Nat.max i j) (Nat.max a b)) by (apply Rmult_le_compat_l; assumption). assert (d * mo j b <= d * mo (Nat.max i j) (Nat.max a b)) by (apply Rmult_le_compat_l; assumption). lra.
Qed.
Lemma bd_weak x c c' i i' a a' : bd x c i a -> c <= c' -> (i <= i')%nat -> (a <= a')%nat -> bd x c' i' a'.
Proof.
  intros H1 Hc Hi Ha. pose proof (bd_nn _ _ _ _ H1) as C. destruct H1 as (H1 & H2). split; [exact H1|]. eapply Rle_trans; [exact H2|]. pose proof (mo_pos i a). apply Rmult_le_compat; try lra. apply mo_le; assumption.
Qed.
Lemma bd_le x y c i a : 0 <= x <= y -> bd y c i a -> bd x c i a. Proof. intros H (H1 & H2). split; lra. Qed.
Variable u : R.
Hypothesis Hu : 0 <= u.
Definition bu (x c : R) (i a : nat) : Prop := 0 <= x <= c * mo i a * u.
Lemma bu_l x y c d i j a b : bu x c i a -> bd y d j b -> bu (x * y) (c * d) (i + j) (a + b).
Proof.
  intros (H1 & H2) (H3 & H4). split; [apply Rmult_le_pos; assumption|]. rewrite <- mo_mul. replace (c * d * (mo i a * mo j b) * u) with (c * mo i a * u * (d * mo j b)) by ring. apply Rmult_le_compat; assumption.
Qed.
Lemma bu_r x y c d i j a b : bd x c i a -> bu y d j b -> bu (x * y) (c * d) (i + j) (a + b).
Proof. intros H1 H2. rewrite Rmult_comm, (Rmult_comm c), Nat.add_comm, (Nat.add_comm a). apply bu_l; assumption. Qed.
Lemma bu_weak x c c' i i' a a' : 0 <= c -> bu x c i a -> c <= c' -> (i <= i')%nat -> (a <= a')%nat -> bu x c' i' a'.
Proof.
  intros C (H1 & H2) Hc Hi Ha. split; [exact H1|]. eapply Rle_trans; [exact H2|]. apply Rmult_le_compat_r; [exact Hu|]. pose proof (mo_pos i a). apply Rmult_le_compat; try lra. apply mo_le; assumption.
Qed.
Lemma bu_add x y c d i j a b : 0 <= c -> 0 <= d -> bu x c i a -> bu y d j b -> bu (x + y) (c + d) (Nat.max i j) (Nat.max a b).
Proof.
  intros C D H1 H2. pose proof (bu_weak _ _ c _ (Nat.max i j) _ (Nat.max a b) C H1 ltac:(lra) ltac:(lia) ltac:(lia)) as (_ & L1). pose proof (bu_weak _ _ d _ (Nat.max i j) _ (Nat.max a b) D H2 ltac:(lra) ltac:(lia) ltac:(lia)) as (_ & L2).
  destruct H1, H2. split; lra.
Qed.
Lemma bu_le x y c i a : 0 <= x <= y -> bu y c i a -> bu x c i a. Proof. intros H (H1 & H2). split; lra. Qed.
(** if u is at most 1, a multiple of it is a number *)
Lemma bu_bd x c i a : u <= 1 -> 0 <= c -> bu x c i a -> bd x c i a.
Proof. intros H C (H1 & H2). split; [exact H1|]. eapply Rle_trans; [exact H2|]. pose proof (mo_pos i a). assert (0 <= c * mo i a) by nra. nra. Qed.
End Mono.

Section Arith.
Variables (prec emax : Z) (n m : nat) (B lam : R).
Hypotheses (HF : format_ok prec emax) (H4 : (4 <= emax)%Z).
Hypotheses (HB : 1 <= B) (Hn : INR n <= B) (Hm : INR m <= B) (Hm1 : (1 <= m)%nat) (Hl0 : 0 < lam) (Hl1 : lam <= 1) (HU : 2048 * B ^ 5 * uro prec <= lam).
Notation u := (uro prec). Notation e := (eta prec emax). Notation q := (/ lam).
Notation D := (mk_corr B B B B B lam).
Notation bd := (bd B q). Notation bu := (bu B q u).

Lemma q_one : 1 <= q. Proof. rewrite <- Rinv_1. apply Rinv_le; assumption. Qed.
Lemma u0 : 0 <= u. Proof. left. apply uro_pos. Qed.
Lemma Bu_small k : (k <= 5)%nat -> 2048 * B ^ k * u <= 1.
Proof.
  intros Hk. pose proof u0. assert (B ^ k <= B ^ 5) by (apply Rle_pow; assumption). assert (B ^ k * u <= B ^ 5 * u) by (apply Rmult_le_compat_r; assumption). lra.
Qed.
Lemma u_one : u <= / 2048. Proof. pose proof (Bu_small 0 ltac:(lia)). cbn [pow] in H. lra. Qed.
Lemma e_u : 0 <= e <= u.
Proof. split; [left; apply eta_pos|]. unfold eta, uro. destruct HF. apply bpow_le. unfold SpecFloat.emin in *. lia. Qed.
Lemma pw K c : INR K <= c * B -> c <= 4 -> 1 <= (1 + u) ^ K <= 1 + 2 * c * B * u /\ 2 * c * B * u <= 1.
Proof.
  intros HK Hc. pose proof u0. pose proof (Bu_small 1 ltac:(lia)) as S. cbn [pow] in S. assert (c * (B * u) <= 4 * (B * u)) by (apply Rmult_le_compat_r; nra). split; [|lra].
  split; [apply pow_R1_Rle; lra|]. assert (INR K * u <= c * B * u) by (apply Rmult_le_compat_r; assumption). eapply Rle_trans; [apply pow_lin; lra|]. nra.
Qed.
Lemma n1 : INR (n + n + 1) <= 3 * B. Proof. rewrite !plus_INR. cbn [INR]. lra. Qed.
Lemma n2 : INR (n + 1) <= 2 * B. Proof. rewrite !plus_INR. cbn [INR]. lra. Qed.
Lemma n3 : INR (m + 1) <= 2 * B. Proof. rewrite !plus_INR. cbn [INR]. lra. Qed.
Lemma n4 : INR (n + m + 1) <= 3 * B. Proof. rewrite !plus_INR. cbn [INR]. lra. Qed.
Lemma n5 : INR (m + 3) <= 4 * B. Proof. rewrite !plus_INR. cbn [INR]. lra. Qed.
Lemma pw_bd K c : INR K <= c * B -> c <= 4 -> bd ((1 + u) ^ K) 2 0 0.
Proof. intros H1 H2. destruct (pw K c H1 H2). unfold FloatModerate.bd, mo. cbn [pow]. lra. Qed.
Lemma pw_bu K c : INR K <= c * B -> c <= 4 -> bu ((1 + u) ^ K - 1) (2 * c) 1 0.
Proof. intros H1 H2. destruct (pw K c H1 H2). unfold FloatModerate.bu, mo. cbn [pow]. lra. Qed.
Lemma bd_B : bd B 1 1 0. Proof. unfold FloatModerate.bd, mo. cbn [pow]. lra. Qed.
Lemma bd_n : bd (INR n) 1 1 0. Proof. pose proof (pos_INR n). unfold FloatModerate.bd, mo. cbn [pow]. lra. Qed.
Lemma bd_m : bd (INR m) 1 1 0. Proof. pose proof (pos_INR m). unfold FloatModerate.bd, mo. cbn [pow]. lra. Qed.
Lemma bd_q : bd q 1 0 1. Proof. pose proof q_one. unfold FloatModerate.bd, mo. cbn [pow]. lra. Qed.
Lemma bd_lam : bd lam 1 0 0. Proof. unfold FloatModerate.bd, mo. cbn [pow]. lra. Qed.
Lemma bu_e : bu e 1 0 0. Proof. pose proof e_u. unfold FloatModerate.bu, mo. cbn [pow]. lra. Qed.
Lemma bd_e : bd e 1 0 0. Proof. pose proof e_u. pose proof u_one. unfold FloatModerate.bd, mo. cbn [pow]. lra. Qed.

Ltac bdt := first [eassumption|match goal with |- FloatModerate.bd _ _ (IZR _) _ _ _ => apply bd_const; lra end
  |exact bd_B|exact bd_n|exact bd_m|exact bd_q|exact bd_lam|exact bd_e
  |match goal with |- FloatModerate.bd _ _ (_ * _) _ _ _ => apply bd_mul; [bdt|bdt] end
  |match goal with |- FloatModerate.bd _ _ (_ + _) _ _ _ => apply bd_add; [exact HB|exact q_one|bdt|bdt] end].
Ltac but := first [eassumption|exact bu_e
  |match goal with |- FloatModerate.bu _ _ _ (_ * _) _ _ _ => first [eapply bu_r; [bdt|but]|eapply bu_l; [but|bdt]] end
  |match goal with |- FloatModerate.bu _ _ _ (_ + _) _ _ _ => eapply bu_add; [exact HB|exact q_one|exact u0| | |but|but] end].
Ltac bw := eapply bd_weak; [exact HB|exact q_one|bdt| | |]; [lra|cbn; lia|cbn; lia].
Ltac buw := eapply bu_weak; [exact HB|exact q_one|exact u0| |but| | |]; [..|cbn; lia|cbn; lia]; lra.

Let A1 := pw_bd _ _ n1 ltac:(lra). Let A2 := pw_bd _ _ n2 ltac:(lra). Let A3 := pw_bd _ _ n3 ltac:(lra). Let A4 := pw_bd _ _ n4 ltac:(lra).
Let C1 := pw_bu _ _ n1 ltac:(lra). Let C2 := pw_bu _ _ n2 ltac:(lra). Let C3 := pw_bu _ _ n3 ltac:(lra). Let C4 := pw_bu _ _ n4 ltac:(lra). Let C5 := pw_bu _ _ n5 ltac:(lra).
Lemma n6 : INR m <= 1 * B. Proof. lra. Qed.
Lemma n7 : INR n <= 1 * B. Proof. lra. Qed.
Let A6 := pw_bd _ _ n6 ltac:(lra). Let A7 := pw_bd _ _ n7 ltac:(lra).

Lemma b_serr : bu (s_err prec emax n D) 16 4 0.
Proof. pose proof C1 as C. pose proof A1 as A. unfold s_err. cbn [cd_r cd_rho cd_p]. buw. Qed.
Lemma b_stop : bd (s_top prec emax n D) 8 3 0.
Proof. pose proof A1 as A. unfold s_top. cbn [cd_r cd_rho cd_p]. bw. Qed.
Lemma b_h : bu (ch_h prec emax m) 2 0 0.
Proof. pose proof A6 as A. unfold ch_h. buw. Qed.
Lemma b_hd : bd (ch_h prec emax m) 2 0 0.
Proof. apply bu_bd with u; [exact HB|exact q_one|pose proof u_one; lra|lra|exact b_h]. Qed.
Lemma b_tau : bd (ch_tau prec emax m (s_top prec emax n D)) 24 3 0.
Proof. pose proof b_stop. pose proof b_hd. unfold ch_tau. bw. Qed.
Lemma b_eps : bu (ch_eps prec emax m (s_top prec emax n D)) 52 3 0.
Proof. pose proof b_tau. pose proof b_h. unfold ch_eps. buw. Qed.
Lemma b_gam : bu (ch_gam prec m) 8 1 0. Proof. unfold ch_gam. eapply bu_weak; [exact HB|exact q_one|exact u0| |exact C5| | |]; [lra..|lia|lia]. Qed.
Lemma b_ytop : bd (y_top prec emax n D) 6 2 0.
Proof. pose proof A2 as A. unfold y_top. cbn [cd_z cd_rho cd_x]. bw. Qed.
Lemma b_yerr : bu (y_err prec emax n D) 10 3 0.
Proof. pose proof A2 as A. pose proof C2 as C. unfold y_err. cbn [cd_z cd_rho cd_x]. buw. Qed.
Lemma b_ksum : bd (k_sum m D) 5 3 1.
Proof. unfold k_sum, Rdiv. cbn [cd_p cd_rho cd_lam]. bw. Qed.
Lemma b_kinv : bd (k_inv m D) 5 1 1.
Proof. unfold k_inv, Rdiv. cbn [cd_lam]. bw. Qed.
Lemma b_ktop : bd (k_top prec emax n m D) 22 3 1.
Proof. pose proof A4 as A. pose proof b_ksum. pose proof b_kinv. unfold k_top. bw. Qed.
Lemma big_lt x c i a : bd x c i a -> c <= 262144 -> (i <= 6)%nat -> (a <= 3)%nat -> 262144 * B ^ 6 / lam ^ 3 < too_big emax -> x < too_big emax.
Proof.
  intros H Hc Hi Ha HT. eapply Rle_lt_trans; [|exact HT]. pose proof (bd_weak B q HB q_one x c 262144 i 6 a 3 H Hc Hi Ha) as (_ & G). eapply Rle_trans; [exact G|]. right. unfold mo, Rdiv. rewrite pow_inv. ring.
Qed.
Lemma lam_ge x c i : bu x c i 0 -> c <= 2048 -> (i <= 5)%nat -> 0 <= c -> x <= lam.
Proof.
  intros H Hc Hi C. eapply Rle_trans; [|exact HU]. pose proof (bu_weak B q HB q_one u u0 x c 2048 i 5 0 0 C H Hc Hi (le_n 0)) as (_ & G). eapply Rle_trans; [exact G|]. right. unfold mo. cbn [pow]. ring.
Qed.
Lemma ready : 262144 * B ^ 6 / lam ^ 3 < too_big emax -> corr_ready prec emax n m D.
Proof.
  intros HT. pose proof b_stop as S. pose proof b_tau as T. pose proof b_eps as E. pose proof b_gam as G. pose proof b_hd as Hd. pose proof b_h as Hh. pose proof b_ytop as Y. pose proof b_ktop as K.
  pose proof A1 as P1. pose proof A3 as P3. pose proof A4 as P4. pose proof A7 as P7.
  split; [split; [split; [|split; [|split]]|split]|split; [|split; [|split; [|split; [|split]]]]].
  - exact Hl0.
  - assert (X : bu (2048 * (/ 20 * (ch_gam prec m + ch_h prec emax m))) 2048 1 0).
    { eapply bu_weak; [exact HB|exact q_one|exact u0| | | | |]; [|eapply bu_r; [apply bd_const; lra|]; eapply bu_r; [apply bd_const; lra|but]| | |]; try (cbn; lia); lra. }
    destruct X as (_ & X). unfold mo in X. cbn [pow] in X. pose proof (Bu_small 1 ltac:(lia)) as Q. cbn [pow] in Q. lra.
  - refine (lam_ge _ 1952 5 _ _ _ _); [|lra|lia|lra]. buw.
  - refine (big_lt _ 262144 6 3 _ _ _ _ HT); [|lra|lia|lia]. unfold Rdiv. bw.
  - assert (X : bu (4 * INR m * ch_eps prec emax m (s_top prec emax n D) * (1 + lam)) 416 4 0) by buw. apply Rle_trans with lam; [|exact Hl1]. apply (lam_ge _ 416 4 X); [lra|lia|lra].
  - refine (big_lt _ 262144 6 3 _ _ _ _ HT); [|lra|lia|lia]. cbn [pow cd_lam]. rewrite Rmult_1_r. bw.
  - refine (big_lt _ 8 3 0 S _ _ _ HT); [lra|lia|lia].
  - refine (big_lt _ 262144 6 3 _ _ _ _ HT); [|lra|lia|lia]. cbn [cd_rho cd_p]. bw.
  - refine (big_lt _ 6 2 0 Y _ _ _ HT); [lra|lia|lia].
  - refine (big_lt _ 22 3 1 K _ _ _ HT); [lra|lia|lia].
  - refine (big_lt _ 262144 6 3 _ _ _ _ HT); [|lra|lia|lia]. cbn [cd_x]. bw.
  - refine (big_lt _ 262144 6 3 _ _ _ _ HT); [|lra|lia|lia]. cbn [cd_rho cd_p]. bw.
Qed.

Lemma bu_sq x y c d i j a b : bu x c i a -> bu y d j b -> FloatModerate.bu B q (u * u) (x * y) (c * d) (i + j) (a + b).
Proof.
  intros (H1 & H2) (H3 & H5). split; [apply Rmult_le_pos; assumption|]. rewrite <- mo_mul. replace (c * d * (mo B q i a * mo B q j b) * (u * u)) with (c * mo B q i a * u * (d * mo B q j b * u)) by ring. apply Rmult_le_compat; assumption.
Qed.
Lemma uu0 : 0 <= u * u. Proof. pose proof u0. nra. Qed.
Lemma b_sub : FloatModerate.bu B q (u * u) (sub_err2 prec emax m (s_top prec emax n D) lam) 458112 7 3.
Proof.
  pose proof b_tau as T. pose proof b_eps as E. pose proof b_gam as G. pose proof (bu_sq _ _ _ _ _ _ _ _ G G) as GG. pose proof (bu_sq _ _ _ _ _ _ _ _ E E) as EE.
  unfold sub_err2. cbv zeta. unfold Rdiv. rewrite <- pow_inv. cbn [pow]. rewrite Rmult_1_r.
  eapply bu_weak; [exact HB|exact q_one|exact uu0| | | | |]; [|eapply bu_add; [exact HB|exact q_one|exact uu0| | | |]| | |];
    [ | | |match goal with |- FloatModerate.bu _ _ _ (256 * ?gg * ?mm * ?tt * ?qq) _ _ _ => eapply bu_l; [eapply bu_l; [eapply bu_l; [eapply bu_r; [apply bd_const; lra|exact GG]|bdt]|bdt]|bdt] end
    |eapply bu_l; [eapply bu_l; [eapply bu_r; [bdt|exact EE]|bdt]|bdt]| | |]; try (cbn; lia); lra.
Qed.
Lemma b_sqrt : bu (sqrt (sub_err2 prec emax m (s_top prec emax n D) lam)) 677 4 2.
Proof.
  split; [apply sqrt_pos|]. pose proof u0 as H0. pose proof (mo_pos B q HB q_one 4 2) as Hm0. assert (P : 0 <= 677 * mo B q 4 2 * u) by nra. rewrite <- (sqrt_Rsqr _ P). apply sqrt_le_1_alt. unfold Rsqr.
  destruct b_sub as (_ & S). eapply Rle_trans; [exact S|]. replace (677 * mo B q 4 2 * u * (677 * mo B q 4 2 * u)) with (458329 * (mo B q 4 2 * mo B q 4 2) * (u * u)) by ring. rewrite mo_mul.
  apply Rmult_le_compat_r; [exact uu0|]. pose proof (mo_le B q HB q_one 7 3 (4 + 4) (2 + 2) ltac:(lia) ltac:(lia)). pose proof (mo_pos B q HB q_one 7 3). nra.
Qed.
Lemma b_werr : bu (w_err prec emax n m D) 1197 5 2.
Proof.
  pose proof b_sqrt as Q. pose proof b_tau as T. pose proof b_eps as E. pose proof b_gam as G. pose proof b_serr as S.
  unfold w_err, inv_err. unfold Rdiv. rewrite <- pow_inv. cbn [pow cd_lam] in *. rewrite Rmult_1_r. buw.
Qed.
Lemma b_kerr : bu (k_err prec emax n m D) 1251 8 2.
Proof. pose proof A4 as A. pose proof C4 as C. pose proof b_ksum. pose proof b_kinv. pose proof b_werr. unfold k_err. cbn [cd_p cd_rho]. buw. Qed.
Lemma b_kex : bd (k_exact m D) 1 3 1.
Proof. unfold k_exact. cbn [cd_p cd_rho cd_lam]. bw. Qed.
Lemma b_xerr : bu (x_err prec emax n m D) 8192 11 2.
Proof. pose proof A3 as A. pose proof C3 as C. pose proof b_ktop. pose proof b_ytop. pose proof b_yerr. pose proof b_kerr. pose proof b_kex. unfold x_err. cbn [cd_x]. buw. Qed.
Lemma b_perr : bu (P_err prec emax n m D) 8192 11 2.
Proof. pose proof A4 as A. pose proof C4 as C. pose proof b_ktop. pose proof b_kerr. unfold P_err. cbn [cd_p cd_rho]. buw. Qed.
Lemma b_final x c i a : bu x c i a -> 0 <= c <= 8192 -> (i <= 11)%nat -> (a <= 2)%nat -> x <= 8192 * B ^ 11 * u / lam ^ 2.
Proof.
  intros H (C & Hc) Hi Ha. destruct (bu_weak B q HB q_one u u0 x c 8192 i 11 a 2 C H Hc Hi Ha) as (_ & G). eapply Rle_trans; [exact G|]. right. unfold mo, Rdiv. rewrite pow_inv. ring.
Qed.
End Arith.

Section Moderate.
Variables (c : cfg) (prec emax : Z) (sz : bool).
Hypothesis HF : format_ok prec emax.
Hypothesis H4 : (4 <= emax)%Z.
Notation NN := (sf_num prec emax sz).

Theorem correct_exact n m (o : observation spec_float) (f : kalman spec_float) (D : corr_data) : (1 <= n)%nat -> (1 <= m)%nat -> ob_valid c n m o -> kf_valid c n f ->
  kf_format prec emax f -> all_in_format prec emax (kf_px f) -> all_in_format prec emax (kf_tP f) -> ob_format prec emax o ->
  fin_matrix n 1 (kf_x f) -> fin_matrix n n (kf_P f) -> fin_matrix m n (ob_H o) -> fin_matrix m 1 (ob_z o) -> fin_matrix m m (ob_R o) ->
  let H := rcell n (ob_H o) in let P := rcell n (kf_P f) in let Rm := rcell m (ob_R o) in let z := fun i => rcell 1 (ob_z o) i 0 in let x := fun i => rcell 1 (kf_x f) i 0 in
  within prec emax n m D H P Rm x z -> corr_ready prec emax n m D ->
  exists o' f' W, correct c NN n m o f = Ok (o', f') /\ fin_matrix m 1 (ob_y o') /\ fin_matrix m m (ob_Sinv o') /\ fin_matrix n m (ob_K o') /\ fin_matrix n 1 (kf_x f') /\ fin_matrix n n (kf_P f') /\
    inverse_of m (upper_of (inn_cov n H P Rm)) W /\ let K := gain_of n m H P W in let y := innov_of n z H x in
      (forall i j, (i < n)%nat -> (j < m)%nat -> Rabs (rcell m (ob_K o') i j - K i j) <= k_err prec emax n m D) /\
      (forall i, (i < n)%nat -> Rabs (rcell 1 (kf_x f') i 0 - corr_x m K y x i) <= x_err prec emax n m D) /\
      (forall i j, (i < n)%nat -> (j < n)%nat -> Rabs (rcell n (kf_P f') i j - corr_P n m K H P i j) <= P_err prec emax n m D).
Proof.
  intros Hn Hm Ho Hf Ff F1 F2 Fo Ix IP IH Iz IR H P Rm z x WI CR.
  destruct (correct_accurate c prec emax sz HF H4 n m o f D Hn Hm Ho Hf Ff F1 F2 Fo Ix IP IH Iz IR WI CR) as (o' & f' & E & G1 & G2 & G3 & _ & G4 & G5 & A).
  assert (PE : 0 <= s_err prec emax n D).
  { destruct WI as (BH & BP & BR & _). pose proof (uro_pos prec) as Hu. pose proof (eta_pos prec emax) as He. pose proof (pow_R1_Rle (1 + uro prec) (n + n + 1) ltac:(lra)) as Hw. pose proof (pos_INR n) as HN.
    assert (0 <= cd_rho D) by (eapply Rle_trans; [|apply (BH 0%nat); lia]; apply rsum_pos; intros; apply Rabs_pos).
    assert (0 <= cd_p D) by (eapply Rle_trans; [apply Rabs_pos|apply (BP 0%nat 0%nat); lia]). assert (0 <= cd_r D) by (eapply Rle_trans; [apply Rabs_pos|apply (BR 0%nat 0%nat); lia]).
    unfold s_err. apply Rplus_le_le_0_compat; apply Rmult_le_pos; try lra; [|apply Rmult_le_pos; lra|].
    - apply Rplus_le_le_0_compat; [assumption|]. apply Rmult_le_pos; [apply Rmult_le_pos|]; assumption.
    - apply Rplus_le_le_0_compat; [apply Rmult_le_pos|]; assumption. }
  destruct (inverse_exists m (upper_of (inn_cov n H P Rm)) (cd_lam D)) as (W & IW).
  { apply CR. } { destruct WI as (_ & _ & _ & _ & _ & Hi). intros v. eapply Rle_trans; [|apply Hi]. apply Rmult_le_compat_r; [apply rsum_sq_abs|]. pose proof (Rmult_le_pos _ _ (pos_INR m) PE). lra. }
  exists o', f', W. repeat (split; [assumption|]). apply (A W IW).
Qed.

Theorem correct_moderate n m (o : observation spec_float) (f : kalman spec_float) (B lam : R) : (1 <= n)%nat -> (1 <= m)%nat -> ob_valid c n m o -> kf_valid c n f ->
  kf_format prec emax f -> all_in_format prec emax (kf_px f) -> all_in_format prec emax (kf_tP f) -> ob_format prec emax o ->
  fin_matrix n 1 (kf_x f) -> fin_matrix n n (kf_P f) -> fin_matrix m n (ob_H o) -> fin_matrix m 1 (ob_z o) -> fin_matrix m m (ob_R o) ->
  let H := rcell n (ob_H o) in let P := rcell n (kf_P f) in let Rm := rcell m (ob_R o) in let z := fun i => rcell 1 (ob_z o) i 0 in let x := fun i => rcell 1 (kf_x f) i 0 in
  INR n <= B -> INR m <= B -> (forall i, (i < m)%nat -> rsum n (fun l => Rabs (H i l)) <= B) ->
  at_most n n (kf_P f) B -> at_most m m (ob_R o) B -> at_most n 1 (kf_x f) B -> at_most m 1 (ob_z o) B ->
  eig_above m (upper_of (inn_cov n H P Rm)) (2 * lam) -> 2048 * B ^ 5 * uro prec <= lam <= 1 -> 262144 * B ^ 6 / lam ^ 3 < too_big emax ->
  exists o' f' W, correct c NN n m o f = Ok (o', f') /\ fin_matrix m 1 (ob_y o') /\ fin_matrix m m (ob_Sinv o') /\ fin_matrix n m (ob_K o') /\ fin_matrix n 1 (kf_x f') /\ fin_matrix n n (kf_P f') /\
    inverse_of m (upper_of (inn_cov n H P Rm)) W /\ let K := gain_of n m H P W in let y := innov_of n z H x in let err := 8192 * B ^ 11 * uro prec / lam ^ 2 in
      (forall i j, (i < n)%nat -> (j < m)%nat -> Rabs (rcell m (ob_K o') i j - K i j) <= err) /\
      (forall i, (i < n)%nat -> Rabs (rcell 1 (kf_x f') i 0 - corr_x m K y x i) <= err) /\
      (forall i j, (i < n)%nat -> (j < n)%nat -> Rabs (rcell n (kf_P f') i j - corr_P n m K H P i j) <= err).
Proof.
  intros Hn Hm Ho Hf Ff F1 F2 Fo Ix IP IH Iz IR H P Rm z x Bn Bm BH BP BR BX BZ Heig (HU & Hl1) HT.
  assert (HB : 1 <= B) by (eapply Rle_trans; [|exact Bn]; change 1 with (INR 1); apply le_INR, Hn).
  assert (Hl0 : 0 < lam). { eapply Rlt_le_trans; [|exact HU]. pose proof (uro_pos prec) as Hu. pose proof (pow_R1_Rle B 5 HB). apply Rmult_lt_0_compat; [lra|]. unfold uro. apply bpow_gt_0. }
  assert (CR : corr_ready prec emax n m (mk_corr B B B B B lam)) by (apply ready; assumption).
  assert (SE : bu B (/ lam) (uro prec) (s_err prec emax n (mk_corr B B B B B lam)) 16 4 0) by (eapply b_serr; eassumption).
  destruct (correct_exact n m o f (mk_corr B B B B B lam) Hn Hm Ho Hf Ff F1 F2 Fo Ix IP IH Iz IR) as (o' & f' & W & E & G1 & G2 & G3 & G4 & G5 & IW & AK & AX & AP); [|exact CR|].
  - split; [exact BH|]. split; [exact BP|]. split; [exact BR|]. split; [intros i Hi; apply BX; lia|]. split; [intros i Hi; apply BZ; lia|].
    intros v. eapply Rle_trans; [|apply Heig]. apply Rmult_le_compat_r; [apply rsum_sq_abs|]. cbn [cd_lam].
    assert (X : bu B (/ lam) (uro prec) (INR m * s_err prec emax n (mk_corr B B B B B lam)) (1 * 16) (1 + 4) (0 + 0)).
    { eapply bu_r; [|exact SE]. apply bd_m; assumption. }
    assert (INR m * s_err prec emax n (mk_corr B B B B B lam) <= lam) by (eapply lam_ge; [eassumption..|exact X| | |]; [lra|lia|lra]). lra.
  - exists o', f', W. repeat (split; [assumption|]). intros K y err.
    split; [|split]; intros.
    + eapply Rle_trans; [apply AK; assumption|]. eapply b_final; [eassumption..|apply b_kerr; assumption| | |]; [lra|lia|lia].
    + eapply Rle_trans; [apply AX; assumption|]. eapply b_final; [eassumption..|apply b_xerr; assumption| | |]; [lra|lia|lia].
    + eapply Rle_trans; [apply AP; assumption|]. eapply b_final; [eassumption..|apply b_perr; assumption| | |]; [lra|lia|lia].
Qed.

Lemma moderate_within n m B lam H P Rm x z : (1 <= n)%nat -> (1 <= m)%nat -> moderate prec emax n m B lam H P Rm x z ->
  within prec emax n m (mk_corr B B B B B lam) H P Rm x z /\ corr_ready prec emax n m (mk_corr B B B B B lam).
Proof.
  intros Hn Hm (Bn & Bm & BH & BP & BR & BX & BZ & Heig & (HU & Hl1) & HT).
  assert (HB : 1 <= B) by (eapply Rle_trans; [|exact Bn]; change 1 with (INR 1); apply le_INR, Hn).
  assert (Hl0 : 0 < lam). { eapply Rlt_le_trans; [|exact HU]. pose proof (uro_pos prec) as Hu. pose proof (pow_R1_Rle B 5 HB). apply Rmult_lt_0_compat; [lra|]. unfold uro. apply bpow_gt_0. }
  split; [|apply ready; assumption]. assert (SE : bu B (/ lam) (uro prec) (s_err prec emax n (mk_corr B B B B B lam)) 16 4 0) by (eapply b_serr; eassumption).
  split; [exact BH|]. split; [exact BP|]. split; [exact BR|]. split; [exact BX|]. split; [exact BZ|].
  intros v. eapply Rle_trans; [|apply Heig]. apply Rmult_le_compat_r; [apply rsum_sq_abs|]. cbn [cd_lam].
  assert (X : bu B (/ lam) (uro prec) (INR m * s_err prec emax n (mk_corr B B B B B lam)) (1 * 16) (1 + 4) (0 + 0)).
  { eapply bu_r; [|exact SE]. apply bd_m; assumption. }
  assert (INR m * s_err prec emax n (mk_corr B B B B B lam) <= lam) by (eapply lam_ge; [eassumption..|exact X| | |]; [lra|lia|lra]). lra.
Qed.
(** the bounds of [correct_moderate], bundled *)
Lemma several_finite n m (o : observation spec_float) (f : kalman spec_float) (B lam : R) : (1 <= n)%nat -> (1 <= m)%nat -> ob_valid c n m o -> kf_valid c n f ->
  kf_format prec emax f -> all_in_format prec emax (kf_px f) -> all_in_format prec emax (kf_tP f) -> ob_format prec emax o ->
  fin_matrix n 1 (kf_x f) -> fin_matrix n n (kf_P f) -> fin_matrix m n (ob_H o) -> fin_matrix m 1 (ob_z o) -> fin_matrix m m (ob_R o) ->
  moderate prec emax n m B lam (rcell n (ob_H o)) (rcell n (kf_P f)) (rcell m (ob_R o)) (fun i => rcell 1 (kf_x f) i 0) (fun i => rcell 1 (ob_z o) i 0) ->
  exists o' f', correct c NN n m o f = Ok (o', f') /\ fin_matrix n m (ob_K o') /\ fin_matrix n 1 (kf_x f') /\ fin_matrix n n (kf_P f').
Proof.
  intros Hn Hm Ho Hf Ff F1 F2 Fo Ix IP IH Iz IR (M1 & M2 & M3 & M4 & M5 & M6 & M7 & M8 & M9 & M10).
  destruct (correct_moderate n m o f B lam Hn Hm Ho Hf Ff F1 F2 Fo Ix IP IH Iz IR M1 M2 M3 M4 M5) as (o' & f' & W & E & _ & _ & G3 & G4 & G5 & _); auto.
  - intros i j Hi Hj. replace j with 0%nat by lia. apply M6, Hi.
  - intros i j Hi Hj. replace j with 0%nat by lia. apply M7, Hi.
  - exists o', f'. auto.
Qed.
Lemma several_accurate n m (o : observation spec_float) (f : kalman spec_float) (B lam : R) : (1 <= n)%nat -> (1 <= m)%nat -> ob_valid c n m o -> kf_valid c n f ->
  kf_format prec emax f -> all_in_format prec emax (kf_px f) -> all_in_format prec emax (kf_tP f) -> ob_format prec emax o ->
  fin_matrix n 1 (kf_x f) -> fin_matrix n n (kf_P f) -> fin_matrix m n (ob_H o) -> fin_matrix m 1 (ob_z o) -> fin_matrix m m (ob_R o) ->
  let H := rcell n (ob_H o) in let P := rcell n (kf_P f) in let Rm := rcell m (ob_R o) in let z := fun i => rcell 1 (ob_z o) i 0 in let x := fun i => rcell 1 (kf_x f) i 0 in
  moderate prec emax n m B lam H P Rm x z ->
  exists o' f' W, correct c NN n m o f = Ok (o', f') /\ fin_matrix n 1 (kf_x f') /\ fin_matrix n n (kf_P f') /\
    inverse_of m (upper_of (inn_cov n H P Rm)) W /\ let K := gain_of n m H P W in let y := innov_of n z H x in let err := 8192 * B ^ 11 * uro prec / lam ^ 2 in
      (forall i j, (i < n)%nat -> (j < m)%nat -> Rabs (rcell m (ob_K o') i j - K i j) <= err) /\
      (forall i, (i < n)%nat -> Rabs (rcell 1 (kf_x f') i 0 - corr_x m K y x i) <= err) /\
      (forall i j, (i < n)%nat -> (j < n)%nat -> Rabs (rcell n (kf_P f') i j - corr_P n m K H P i j) <= err).
Proof.
  intros Hn Hm Ho Hf Ff F1 F2 Fo Ix IP IH Iz IR H P Rm z x (M1 & M2 & M3 & M4 & M5 & M6 & M7 & M8 & M9 & M10).
  destruct (correct_moderate n m o f B lam Hn Hm Ho Hf Ff F1 F2 Fo Ix IP IH Iz IR M1 M2 M3 M4 M5) as (o' & f' & W & E & _ & _ & G3 & G4 & G5 & G); auto.
  - intros i j Hi Hj. replace j with 0%nat by lia. apply M6, Hi.
  - intros i j Hi Hj. replace j with 0%nat by lia. apply M7, Hi.
  - exists o', f', W. auto.
Qed.
(** a symmetric prior stays symmetric up to rounding; a variance above the error stays positive *)
Lemma several_near_sym n m (o : observation spec_float) (f : kalman spec_float) (B lam : R) : (1 <= n)%nat -> (1 <= m)%nat -> ob_valid c n m o -> kf_valid c n f ->
  kf_format prec emax f -> all_in_format prec emax (kf_px f) -> all_in_format prec emax (kf_tP f) -> ob_format prec emax o ->
  fin_matrix n 1 (kf_x f) -> fin_matrix n n (kf_P f) -> fin_matrix m n (ob_H o) -> fin_matrix m 1 (ob_z o) -> fin_matrix m m (ob_R o) ->
  moderate prec emax n m B lam (rcell n (ob_H o)) (rcell n (kf_P f)) (rcell m (ob_R o)) (fun i => rcell 1 (kf_x f) i 0) (fun i => rcell 1 (ob_z o) i 0) -> sym_on n (rcell n (kf_P f)) ->
  exists o' f', correct c NN n m o f = Ok (o', f') /\ forall i j, (i < n)%nat -> (j < n)%nat ->
    Rabs (rcell n (kf_P f') i j - rcell n (kf_P f') j i) <= 2 * (8192 * B ^ 11 * uro prec / lam ^ 2).
Proof.
  intros Hn Hm Ho Hf Ff F1 F2 Fo Ix IP IH Iz IR M SP.
  destruct (several_accurate n m o f B lam Hn Hm Ho Hf Ff F1 F2 Fo Ix IP IH Iz IR M) as (o' & f' & W & E & _ & _ & IW & _ & _ & G). exists o', f'. split; [exact E|].
  intros i j Hi Hj. set (H := rcell n (ob_H o)) in *. set (P := rcell n (kf_P f)) in *. set (Rm := rcell m (ob_R o)) in *.
  assert (SW : sym_on m W). { eapply inverse_sym; [|exact IW]. intros p q Hp Hq. unfold upper_of. rewrite Nat.min_comm, Nat.max_comm. reflexivity. }
  pose proof (corr_sym n m H P W SP SW i j Hi Hj) as SC. pose proof (G i j Hi Hj) as G1. pose proof (G j i Hj Hi) as G2. rewrite <- SC in G2.
  set (v := corr_P n m (gain_of n m H P W) H P i j) in *. set (a := rcell n (kf_P f') i j) in *. set (b := rcell n (kf_P f') j i) in *.
  replace (a - b) with ((a - v) + - (b - v)) by ring. eapply Rle_trans; [apply Rabs_triang|]. rewrite Rabs_Ropp. lra.
Qed.
Lemma several_positive n m (o : observation spec_float) (f : kalman spec_float) (B lam : R) : (1 <= n)%nat -> (1 <= m)%nat -> ob_valid c n m o -> kf_valid c n f ->
  kf_format prec emax f -> all_in_format prec emax (kf_px f) -> all_in_format prec emax (kf_tP f) -> ob_format prec emax o ->
  fin_matrix n 1 (kf_x f) -> fin_matrix n n (kf_P f) -> fin_matrix m n (ob_H o) -> fin_matrix m 1 (ob_z o) -> fin_matrix m m (ob_R o) ->
  let H := rcell n (ob_H o) in let P := rcell n (kf_P f) in let Rm := rcell m (ob_R o) in
  moderate prec emax n m B lam H P Rm (fun i => rcell 1 (kf_x f) i 0) (fun i => rcell 1 (ob_z o) i 0) ->
  exists o' f' W, correct c NN n m o f = Ok (o', f') /\ inverse_of m (upper_of (inn_cov n H P Rm)) W /\
    forall i, (i < n)%nat -> 8192 * B ^ 11 * uro prec / lam ^ 2 < corr_P n m (gain_of n m H P W) H P i i -> exists v, cell n (kf_P f') i i = Some v /\ sf_finite v = true /\ 0 < val v.
Proof.
  intros Hn Hm Ho Hf Ff F1 F2 Fo Ix IP IH Iz IR H P Rm M.
  destruct (several_accurate n m o f B lam Hn Hm Ho Hf Ff F1 F2 Fo Ix IP IH Iz IR M) as (o' & f' & W & E & _ & FP & IW & _ & _ & G). exists o', f', W. split; [exact E|]. split; [exact IW|].
  intros i Hi HG. destruct (FP i i Hi Hi) as (v & Ev & Fv). exists v. split; [exact Ev|]. split; [exact Fv|]. specialize (G i i Hi Hi). unfold rcell at 1 in G. rewrite Ev in G. fold H P in G.
  pose proof (Rle_abs (- (val v - corr_P n m (gain_of n m H P W) H P i i))) as A. rewrite Rabs_Ropp in A. change (oval (Some v)) with (val v) in G. lra.
Qed.
End Moderate.
