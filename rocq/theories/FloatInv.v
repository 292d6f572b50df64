(** * The inverse computed from a Cholesky factor: finite and accurate *)
From Coq Require Import ZArith Reals Lia Lra Psatz.
From Flocq Require Import Core BinarySingleNaN.
From Verif Require Import Prelude Spec SpecBits Matrix Filter SpecFilter Kernels FloatNum SpecFloats SpecReal SpecRange SpecSolve FloatFlocq FloatOps FloatErr FloatChol FloatPredict FloatForward FloatRange FloatFactor FloatScalar RealSchur RealTri BitsProof FloatTri FloatSolve.
Import SpecFloat.
Open Scope R_scope.

Lemma rsum_shift j K f : rsum (j + K) f = rsum j f + rsum K (fun k => f (j + k)%nat).
Proof. induction K as [|K IH]; [rewrite Nat.add_0_r; cbn; lra|]. rewrite Nat.add_succ_r. cbn [rsum]. rewrite IH. lra. Qed.
Lemma rsum_part b n f : (b <= n)%nat -> (forall k, (k < n)%nat -> 0 <= f k) -> rsum b f <= rsum n f.
Proof. intros Hb Hf. replace n with (b + (n - b))%nat by lia. rewrite rsum_shift. assert (0 <= rsum (n - b) (fun k => f (b + k)%nat)) by (apply rsum_pos; intros; apply Hf; lia). lra. Qed.
Lemma sqrt_abs_le x y : x * x <= y -> Rabs x <= sqrt y.
Proof. intros H. rewrite <- sqrt_Rsqr_abs. apply sqrt_le_1_alt. exact H. Qed.

Section Inv.
Variables (prec emax : Z) (sz : bool).
Hypothesis HF : format_ok prec emax.
Hypothesis H4 : (4 <= emax)%Z.
Notation NN := (sf_num prec emax sz).
#[local] Instance hprec : Prec_gt_0 prec. Proof. unfold Prec_gt_0. destruct HF. lia. Qed.
#[local] Instance hmax : Prec_lt_emax prec emax. Proof. apply HF. Qed.
Notation vf := (valid_binary prec emax).
Notation u := (uro prec). Notation e := (eta prec emax). Notation tb := (too_big emax).
Variables (n : nat) (L X : nat -> nat -> option spec_float) (sig lam : R).
Notation gam := (ch_gam prec n). Notation h := (ch_h prec emax n). Notation tau := (ch_tau prec emax n sig). Notation eps := (ch_eps prec emax n sig).
Notation N := (INR n).
Notation l i k := (oval (L i k)).
Hypothesis Hn : (1 <= n)%nat.
Hypothesis HR : inv_ready prec emax n sig lam.
Hypothesis F1 : fin_cells prec emax n L.
Hypothesis Z : forall i k, (i < k < n)%nat -> l i k = 0.
Hypothesis F2 : forall i, (i < n)%nat -> 0 < l i i /\ lam / 4 <= l i i * l i i.
Hypothesis F3 : forall i, (i < n)%nat -> rsum n (fun k => l i k * l i k) <= tau.
Hypothesis F4 : forall v, 3 / 4 * lam * rsum n (fun k => v k * v k) <= rsum n (fun p => rsum n (fun k => l k p * v k) * rsum n (fun k => l k p * v k)).
Hypothesis F5 : forall i r, (i < n)%nat -> obind (L i i) (o_recip NN) = Some r -> sf_finite r = true /\ Rabs (val r - / l i i) <= u * Rabs (/ l i i).
Variable Y : nat -> nat -> option spec_float.
Hypothesis HY : forall i, (i < n)%nat -> exists r, obind (L i i) (o_recip NN) = Some r /\ forall j, (j <= i)%nat ->
    Y j i = b_mul NN (b_add NN (Some (if Nat.eqb i j then n_one NN else n_zero NN)) (b_negsum NN j (i - j) (fun k => L i k) (fun k => Y j k))) (Some r) /\
    X i j = b_mul NN (b_add NN (Y j i) (b_negsum NN (i + 1) (n - (i + 1)) (fun k => L k i) (fun k => X j k))) (Some r) /\
    X j i = X i j.

(** zero outside the matrix, to have a triangular matrix *)
Definition lt (i k : nat) : R := if Nat.ltb k n then if Nat.ltb i n then l i k else 0 else 0.
Lemma lt_in i k : (i < n)%nat -> (k < n)%nat -> lt i k = l i k.
Proof. intros Hi Hk. unfold lt. apply Nat.ltb_lt in Hi, Hk. rewrite Hi, Hk. reflexivity. Qed.
Lemma lt_zero i k : (i < k)%nat -> lt i k = 0.
Proof. intros H. unfold lt. destruct (Nat.ltb_spec k n); [|reflexivity]. destruct (Nat.ltb_spec i n); [|reflexivity]. apply Z. lia. Qed.

Lemma consts : 0 < u <= / 4 /\ 0 < e /\ 1 <= N /\ 0 <= gam <= / 2 /\ e <= h /\ 0 < lam /\ 0 <= tau /\ 0 <= eps /\ (forall j, (j <= n + 3)%nat -> 1 <= (1 + u) ^ j <= 1 + gam) /\ (forall j, (j <= n)%nat -> (1 + u) ^ j * e <= h) /\
  h * (N + 1 + tau) = eps /\ 4 * (gam * gam) * (N * tau) <= lam / 4 /\ 4 * N * (eps * eps) <= / 4 /\ 4 * N * (eps * eps) * lam <= / 4 /\ eps <= / 4.
Proof.
  destruct HR as (HC & Q1 & Q2). pose proof HC as (R1 & R2 & R3 & R4).
  pose proof (u_small prec emax HF) as Hu. pose proof (eta_pos prec emax) as He.
  assert (HN : 1 <= N) by (change 1 with (INR 1); apply le_INR, Hn).
  assert (HP : forall j k, (j <= k)%nat -> 1 <= (1 + u) ^ j <= (1 + u) ^ k). { intros j k Hj. split; [apply pow_R1_Rle; lra|apply Rle_pow; [lra|exact Hj]]. }
  assert (Hh : forall j, (j <= n)%nat -> (1 + u) ^ j * e <= h). { intros j Hj. unfold ch_h. apply Rmult_le_compat_r; [lra|]. apply HP, Hj. }
  pose proof (Hh 0%nat ltac:(lia)) as Hh0. cbn [pow] in Hh0. pose proof (HP 0%nat (n + 3)%nat ltac:(lia)) as Hg0. cbn [pow] in Hg0.
  assert (HG : 0 <= gam) by (unfold ch_gam; lra).
  assert (Ht : 0 <= tau). { eapply Rle_trans; [apply (rsum_sq_abs n (fun k => l 0 k))|apply F3; lia]. }
  assert (He0 : 0 <= eps). { unfold ch_eps. apply Rmult_le_pos; lra. }
  assert (E1 : eps * (1 + lam) <= / 4). { assert (0 <= eps * (1 + lam)) by nra. nra. }
  assert (E2 : eps <= / 4) by nra.
  assert (E3 : 4 * N * (eps * eps) * (1 + lam) <= / 4). { replace (4 * N * (eps * eps) * (1 + lam)) with (eps * (4 * N * eps * (1 + lam))) by ring. nra. }
  assert (E4 : 0 <= 4 * N * (eps * eps)) by nra.
  assert (E5 : 8 * N * gam * tau <= lam). { assert (0 <= 4 * (N + 1) * eps) by nra. lra. }
  assert (E6 : 4 * (gam * gam) * (N * tau) <= lam / 4). { assert (0 <= N * tau) by nra. assert (gam * (gam * (N * tau)) <= / 2 * (gam * (N * tau))) by (apply Rmult_le_compat_r; nra). nra. }
  split; [lra|]. split; [lra|]. split; [lra|]. split; [lra|]. split; [lra|]. split; [lra|]. split; [lra|]. split; [lra|].
  split. { intros j Hj. unfold ch_gam. replace (1 + ((1 + u) ^ (n + 3) - 1)) with ((1 + u) ^ (n + 3)) by ring. apply HP, Hj. }
  split; [exact Hh|]. split; [reflexivity|]. split; [exact E6|]. split; [nra|]. split; [nra|lra].
Qed.

Lemma tri_ok : (forall k, (k < n)%nat -> lt k k <> 0) /\ 0 < 3 / 4 * lam /\
  forall v, 3 / 4 * lam * rsum n (fun k => v k * v k) <= rsum n (fun p => rsum n (fun k => lt k p * v k) * rsum n (fun k => lt k p * v k)).
Proof.
  destruct consts as (_ & _ & _ & _ & _ & Hl & _). split; [|split; [lra|]].
  - intros k Hk. rewrite lt_in by assumption. destruct (F2 k Hk). lra.
  - intros v. eapply Rle_trans; [apply F4|]. right. apply rsum_ext. intros p Hp. rewrite (rsum_ext n (fun k => lt k p * v k) (fun k => l k p * v k)) by (intros k Hk; rewrite lt_in by assumption; reflexivity). reflexivity.
Qed.

(** the reciprocal of a pivot *)
Lemma recip_ok i r : (i < n)%nat -> obind (L i i) (o_recip NN) = Some r -> vf r = true /\ sf_finite r = true /\ Rabs (val r - / l i i) <= u * Rabs (/ l i i) /\ Rabs (val r) <= 1 + 16 / lam.
Proof.
  intros Hi Er. destruct (F5 i r Hi Er) as (Fr & Hr). destruct (F2 i Hi) as (Hl0 & Hl2). destruct consts as (Hu & _ & _ & _ & _ & Hl & _).
  destruct (F1 i i Hi Hi) as (x & Ex & Vx & Fx). rewrite Ex in Er. cbn [obind] in Er.
  assert (E : SFdiv prec emax (sf_one prec) x = r) by (change (Some (SFdiv prec emax (sf_one prec) x) = Some r) in Er; congruence).
  split; [rewrite <- E; apply vf_div; auto with typeclass_instances; apply one_format; [exact hmax|apply HF]|]. split; [exact Fr|]. split; [exact Hr|].
  set (lv := l i i) in *. assert (Hi0 : 0 < / lv) by (apply Rinv_0_lt_compat, Hl0). rewrite (Rabs_pos_eq (/ lv)) in Hr by lra.
  assert (Hd1 : Rabs (val r) <= (1 + u) * / lv). { replace (val r) with ((val r - / lv) + / lv) by ring. eapply Rle_trans; [apply Rabs_triang|]. rewrite (Rabs_pos_eq (/ lv)) by lra. lra. }
  assert (Hi2 : / lv * / lv <= 4 / lam). { rewrite <- Rinv_mult. replace (4 / lam) with (/ (lam / 4)) by (field; lra). apply Rinv_le_contravar; lra. }
  assert (/ lv <= (1 + / lv * / lv) / 2). { pose proof (Rle_0_sqr (/ lv - 1)) as Q. unfold Rsqr in Q. lra. }
  assert (0 < / lam) by (apply Rinv_0_lt_compat, Hl). unfold Rdiv in *. nra.
Qed.
Lemma diag_le i : (i < n)%nat -> 2 * l i i <= 1 + tau.
Proof. intros Hi. pose proof (F3 i Hi) as H. pose proof (one_sq n (fun k => l i k) i Hi) as Q. cbv beta in Q. pose proof (Rle_0_sqr (l i i - 1)) as P. unfold Rsqr in P. lra. Qed.

(** the error of one entry in terms of gam and eps *)
Lemma tidy K i (A lv : R) : (K < n)%nat -> (i < n)%nat -> 0 <= A -> 0 <= lv ->
  ((1 + u) ^ 4 - 1) * lv + 2 * (1 + u) * (e * l i i) + (((1 + u) ^ K - 1) * A + INR K * (1 + u) ^ K * e) <= gam * (A + lv) + eps.
Proof.
  intros HK Hi HA Hlv. destruct consts as (Hu & He & HN & Hg & Heh & Hl & Ht & Hep & HP & HE & Eeps & _).
  pose proof (HP 4%nat ltac:(lia)) as P4. pose proof (HP K ltac:(lia)) as PK. pose proof (HE K ltac:(lia)) as EK. pose proof (HE 1%nat Hn) as E1. rewrite pow_1 in E1.
  assert (HKN : INR K <= N) by (apply le_INR; lia). pose proof (pos_INR K). pose proof (diag_le i Hi) as D. destruct (F2 i Hi) as (D0 & _).
  assert (((1 + u) ^ 4 - 1) * lv <= gam * lv) by (apply Rmult_le_compat_r; lra). assert (((1 + u) ^ K - 1) * A <= gam * A) by (apply Rmult_le_compat_r; lra).
  assert (INR K * (1 + u) ^ K * e <= N * h). { rewrite Rmult_assoc. apply Rmult_le_compat; try lra. apply Rmult_le_pos; lra. }
  assert (2 * (1 + u) * (e * l i i) <= h * (1 + tau)). { replace (2 * (1 + u) * (e * l i i)) with (((1 + u) * e) * (2 * l i i)) by ring. apply Rmult_le_compat; try lra. apply Rmult_le_pos; lra. }
  rewrite <- Eeps. lra.
Qed.

(** room for one entry *)
Lemma room_ok K b f g Bf : (K < n)%nat -> Rabs b <= 1 + 5 / lam -> rsum K (fun k => Rabs (f k) * Rabs (g k)) <= Bf -> Bf <= (N * tau + 5 / lam + 21 / lam ^ 2) / 2 ->
  (1 + u) * ((1 + u) * (Rabs b + nroom prec emax K f g) * (1 + (1 + 16 / lam))) + e < tb.
Proof.
  intros HK Hb HB HBf. destruct consts as (Hu & He & HN & Hg & Heh & Hl & Ht & Hep & HP & HE & Eeps & _ & _ & _ & E4). destruct HR as (_ & _ & Q).
  set (z := / lam) in *. assert (Hz : 0 < z) by (apply Rinv_0_lt_compat, Hl).
  replace (5 / lam) with (5 * z) in * by (unfold z; field; lra). replace (16 / lam) with (16 * z) by (unfold z; field; lra).
  replace (21 / lam ^ 2) with (21 * (z * z)) in * by (unfold z; field; lra).
  assert (HA : 0 <= rsum K (fun k => Rabs (f k) * Rabs (g k))) by (apply rsum_pos; intros; apply Rmult_le_pos; apply Rabs_pos).
  assert (HNt : 0 <= N * tau) by nra. set (t := N * tau) in *.
  assert (Hrho : nroom prec emax K f g <= 3 / 2 * ((t + 5 * z + 21 * (z * z)) / 2) + 1).
  { unfold nroom. pose proof (HP K ltac:(lia)) as PK. pose proof (HE K ltac:(lia)) as EK. assert (HKN : INR K <= N) by (apply le_INR; lia). pose proof (pos_INR K).
    rewrite Rmult_plus_distr_l. apply Rplus_le_compat; [apply Rmult_le_compat; lra|].
    replace ((1 + u) ^ K * (INR K * e)) with (INR K * ((1 + u) ^ K * e)) by ring. apply Rle_trans with (N * h); [apply Rmult_le_compat; try lra; apply Rmult_le_pos; lra|].
    assert (N * h <= eps) by (rewrite <- Eeps; nra). lra. }
  assert (H0 : 0 <= nroom prec emax K f g). { unfold nroom. apply Rmult_le_pos; [apply pow_le; lra|]. assert (0 <= INR K * e) by (apply Rmult_le_pos; [apply pos_INR|lra]). lra. }
  set (rho := nroom prec emax K f g) in *. pose proof (Rabs_pos b) as Hb0.
  assert (Hu2 : (1 + u) * (1 + u) <= 3 / 2). { pose proof (HP 2%nat ltac:(lia)) as P2. cbn [pow] in P2. lra. }
  eapply Rle_lt_trans; [|exact Q].
  replace ((1 + u) * ((1 + u) * (Rabs b + rho) * (1 + (1 + 16 * z)))) with ((1 + u) * (1 + u) * ((Rabs b + rho) * (2 + 16 * z))) by ring.
  assert (S1 : Rabs b + rho <= 24 * ((1 + t) * ((1 + z) * (1 + z)))). { assert (0 <= t * z) by nra. assert (0 <= t * (z * z)) by nra. nra. }
  assert (S2 : (Rabs b + rho) * (2 + 16 * z) <= 24 * ((1 + t) * ((1 + z) * (1 + z))) * (16 * (1 + z))) by (apply Rmult_le_compat; nra).
  assert (S3 : (1 + u) * (1 + u) * ((Rabs b + rho) * (2 + 16 * z)) <= 3 / 2 * (24 * ((1 + t) * ((1 + z) * (1 + z))) * (16 * (1 + z)))).
  { apply Rmult_le_compat; [nra| |exact Hu2|exact S2]. apply Rmult_le_pos; nra. }
  assert (S4 : 1 <= (1 + t) * (1 + z) ^ 3). { assert (1 <= (1 + z) ^ 3) by (apply pow_R1_Rle; lra). nra. }
  assert (He1 : e <= 1). { assert (e <= eps) by (rewrite <- Eeps; nra). lra. }
  cbn [pow] in *. nra.
Qed.

(** ** the first substitution: L y = e_j *)
Definition yv (j k : nat) : R := if Nat.ltb k j then 0 else oval (Y j k).
Definition del (i j : nat) : R := if Nat.eqb i j then 1 else 0.
Definition fin_to (j b : nat) : Prop := forall k, (j <= k < b)%nat -> exists v, Y j k = Some v /\ vf v = true /\ sf_finite v = true.
Definition res_to (j b : nat) : Prop := forall i, (i < b)%nat ->
  Rabs (rsum n (fun k => lt i k * yv j k) - del i j) <= gam * rsum n (fun k => Rabs (lt i k) * Rabs (yv j k)) + eps.
Lemma row_cut i f : (i < n)%nat -> rsum n (fun k => lt i k * f k) = rsum (S i) (fun k => lt i k * f k) /\ rsum n (fun k => Rabs (lt i k) * Rabs (f k)) = rsum (S i) (fun k => Rabs (lt i k) * Rabs (f k)).
Proof. intros Hi. split; apply rsum_trunc; try lia; intros p Hp; rewrite lt_zero by lia; rewrite ?Rabs_R0; ring. Qed.
Lemma all_rows b : (b <= n)%nat -> rsum b (fun i => rsum n (fun k => lt i k * lt i k)) <= N * tau.
Proof.
  intros Hb. destruct consts as (_ & _ & _ & _ & _ & _ & Ht & _). apply Rle_trans with (rsum b (fun _ => tau)).
  - apply rsum_le. intros i Hi. eapply Rle_trans; [|apply (F3 i); lia]. right. apply rsum_ext. intros k Hk. rewrite lt_in by lia. reflexivity.
  - rewrite rsum_const. apply Rmult_le_compat_r; [exact Ht|apply le_INR, Hb].
Qed.
Lemma y_norm j b : (b <= n)%nat -> res_to j b -> rsum b (fun k => yv j k * yv j k) <= 5 / lam.
Proof.
  intros Hb Hr. destruct consts as (Hu & He & HN & Hg & Heh & Hl & Ht & Hep & HP & HE & Eeps & G2 & G3 & G4 & G5). destruct tri_ok as (T1 & T2 & T3).
  pose proof (low_block n lt (3 / 4 * lam) T1 lt_zero T2 T3 b (yv j) Hb) as LB.
  set (r := fun i => rsum b (fun k => lt i k * yv j k) - del i j).
  assert (Cut : forall i, (i < b)%nat -> rsum n (fun k => lt i k * yv j k) = rsum b (fun k => lt i k * yv j k) /\ rsum n (fun k => Rabs (lt i k) * Rabs (yv j k)) = rsum b (fun k => Rabs (lt i k) * Rabs (yv j k))).
  { intros i Hi. split; apply rsum_trunc; try lia; intros p Hp; rewrite lt_zero by lia; rewrite ?Rabs_R0; ring. }
  assert (RS : rsum b (fun i => r i * r i) <= 2 * (gam * gam) * (N * tau) * rsum b (fun k => yv j k * yv j k) + 2 * INR b * (eps * eps)).
  { apply residual_sq with (l := lt); [lra|lra| |].
    - intros i Hi. unfold r. destruct (Cut i Hi) as (<- & <-). apply Hr, Hi.
    - eapply Rle_trans; [|apply (all_rows b Hb)]. apply rsum_le. intros i Hi. right. symmetry. apply rsum_trunc; [lia|]. intros p Hp. rewrite lt_zero by lia. ring. }
  pose proof (sum_two_sq b (fun i => del i j) r) as TS. cbv beta in TS.
  rewrite (rsum_ext b (fun i => rsum b (fun k => lt i k * yv j k) * rsum b (fun k => lt i k * yv j k)) (fun i => (del i j + r i) * (del i j + r i))) in LB by (intros i Hi; unfold r; ring).
  assert (D1 : rsum b (fun i => del i j * del i j) <= 1).
  { destruct (Nat.lt_ge_cases j b) as [Hlt|Hge].
    - rewrite (rsum_one b _ j) by (first [lia|intros p Hp Hne; unfold del; apply Nat.eqb_neq in Hne; rewrite Hne; ring]). unfold del. rewrite Nat.eqb_refl. lra.
    - rewrite rsum_zero by (intros p Hp; unfold del; destruct (Nat.eqb_spec p j); [lia|ring]). lra. }
  assert (Hbn : INR b <= N) by (apply le_INR, Hb). pose proof (rsum_sq_abs b (yv j)) as Y0. set (y2 := rsum b (fun k => yv j k * yv j k)) in *.
  assert (B1 : 2 * INR b * (eps * eps) <= 2 * N * (eps * eps)) by nra.
  assert (B2 : 4 * (gam * gam) * (N * tau) * y2 <= lam / 4 * y2) by (apply Rmult_le_compat_r; lra).
  assert (B3 : lam * y2 <= 5) by lra.
  apply Rmult_le_reg_l with lam; [exact Hl|]. unfold Rdiv. replace (lam * (5 * / lam)) with 5 by (field; lra). exact B3.
Qed.
Lemma fin_entry i k : (i < n)%nat -> (k < n)%nat -> exists x, L i k = Some x /\ vf x = true /\ sf_finite x = true. Proof. apply F1. Qed.
Lemma val_one : val (sf_one prec) = 1.
Proof. apply (one_val prec). apply HF. Qed.

Lemma y_step j b : (j <= b < n)%nat -> fin_to j b -> res_to j b -> fin_to j (S b) /\ res_to j (S b).
Proof.
  intros Hb HFt HRt. destruct (HY b ltac:(lia)) as (r & Er & Hj). destruct (Hj j ltac:(lia)) as (EY & _). destruct (recip_ok b r ltac:(lia) Er) as (Vr & Fr & Dr & Br).
  destruct (F2 b ltac:(lia)) as (Hlb & _). pose proof (y_norm j b ltac:(lia) HRt) as YN. destruct consts as (Hu & He & HN & Hg & Heh & Hl & Ht & Hep & HP & HE & Eeps & G2 & G3 & G4 & G5).
  set (bb := if Nat.eqb b j then n_one NN else n_zero NN) in *.
  assert (Vb : vf bb = true) by (unfold bb; destruct (Nat.eqb b j); [apply one_format; [exact hmax|apply HF]|reflexivity]).
  assert (Fb : sf_finite bb = true) by (unfold bb; destruct (Nat.eqb b j); reflexivity).
  assert (Eb : val bb = del b j) by (unfold bb, del; destruct (Nat.eqb b j); [exact val_one|reflexivity]).
  assert (Sh : forall f : nat -> R, (forall k, (k < j)%nat -> f k = 0) -> rsum (b - j) (fun k => f (j + k)%nat) = rsum b f).
  { intros f Hf. replace b with (j + (b - j))%nat at 2 by lia. rewrite rsum_shift, (rsum_zero j f) by exact Hf. lra. }
  assert (Oy : forall k, (j <= k)%nat -> yv j k = oval (Y j k)) by (intros k Hk; unfold yv; destruct (Nat.ltb_spec k j); [lia|reflexivity]).
  assert (Y0 : forall k, (k < j)%nat -> yv j k = 0) by (intros k Hk; unfold yv; destruct (Nat.ltb_spec k j); [reflexivity|lia]).
  assert (E1 : rsum (b - j) (fun k => oval (L b (j + k)%nat) * oval (Y j (j + k)%nat)) = rsum b (fun k => lt b k * yv j k)).
  { rewrite <- (Sh (fun k => lt b k * yv j k)) by (intros k Hk; rewrite Y0 by exact Hk; ring). apply rsum_ext. intros k Hk. rewrite lt_in by lia. rewrite Oy by lia. reflexivity. }
  assert (E2 : rsum (b - j) (fun k => Rabs (oval (L b (j + k)%nat)) * Rabs (oval (Y j (j + k)%nat))) = rsum b (fun k => Rabs (lt b k) * Rabs (yv j k))).
  { rewrite <- (Sh (fun k => Rabs (lt b k) * Rabs (yv j k))) by (intros k Hk; rewrite Y0 by exact Hk; rewrite Rabs_R0; ring). apply rsum_ext. intros k Hk. rewrite lt_in by lia. rewrite Oy by lia. reflexivity. }
  destruct (solve_entry prec emax sz HF j (b - j) (fun k => L b k) (fun k => Y j k) bb (l b b) r (1 + 16 / lam)) as (v & Ev & Vv & Fv & Hv); auto.
  { intros k Hk. destruct (F1 b (j + k)%nat ltac:(lia) ltac:(lia)) as (x & Ex & Vx & _). eauto. }
  { intros k Hk. destruct (HFt (j + k)%nat ltac:(lia)) as (x & Ex & Vx & _). eauto. }
  { intros k a Hk Ea. destruct (F1 b (j + k)%nat ltac:(lia) ltac:(lia)) as (x & Ex & _ & Fx). congruence. }
  { intros k a Hk Ea. destruct (HFt (j + k)%nat ltac:(lia)) as (x & Ex & _ & Fx). congruence. }
  { assert (Hz : 0 < / lam) by (apply Rinv_0_lt_compat, Hl). assert (Hz2 : 0 < 21 / lam ^ 2) by (apply Rmult_lt_0_compat; [lra|apply Rinv_0_lt_compat, pow_lt, Hl]).
    apply (room_ok (b - j) (val bb) _ _ ((tau + 5 / lam) / 2)); [lia| | |].
    - rewrite Eb. unfold del. destruct (Nat.eqb b j); [rewrite Rabs_R1|rewrite Rabs_R0]; unfold Rdiv; lra.
    - rewrite E2. eapply Rle_trans; [apply cs_mean|]. assert (rsum b (fun p => lt b p * lt b p) <= tau); [|lra].
      eapply Rle_trans; [|apply (F3 b); lia]. eapply Rle_trans; [apply (rsum_part b n); [lia|intros; nra]|]. right. apply rsum_ext. intros k Hk. rewrite lt_in by lia. reflexivity.
    - assert (tau <= N * tau) by nra. lra. }
  rewrite <- EY in Ev. split.
  - intros k Hk. destruct (Nat.eq_dec k b) as [->|Hne]; [exists v; auto|apply HFt; lia].
  - intros i Hi. destruct (Nat.eq_dec i b) as [->|Hne]; [|apply HRt; lia]. destruct (row_cut b (yv j) ltac:(lia)) as (-> & ->). rewrite !rsum_last. rewrite (lt_in b b) by lia.
    rewrite E1, E2, Eb in Hv. assert (Yb : yv j b = val v) by (rewrite Oy by lia; rewrite Ev; reflexivity). rewrite Yb. rewrite <- (Rabs_mult (l b b)).
    replace (rsum b (fun k => lt b k * yv j k) + l b b * val v - del b j) with (- (del b j - rsum b (fun k => lt b k * yv j k) - l b b * val v)) by ring. rewrite Rabs_Ropp.
    eapply Rle_trans; [exact Hv|]. apply tidy; [lia|lia| |apply Rabs_pos]. apply rsum_pos. intros. apply Rmult_le_pos; apply Rabs_pos.
Qed.
Lemma y_all j : (j < n)%nat -> fin_to j n /\ res_to j n.
Proof.
  intros Hj. assert (G : forall d, (j + d <= n)%nat -> fin_to j (j + d) /\ res_to j (j + d)).
  { induction d as [|d IH]; intros Hd.
    - rewrite Nat.add_0_r. split; [intros k Hk; lia|]. intros i Hi. destruct consts as (Hu & He & HN & Hg & Heh & Hl & Ht & Hep & _).
      rewrite (rsum_zero n (fun k => lt i k * yv j k)).
      + unfold del. destruct (Nat.eqb_spec i j); [lia|]. rewrite Rminus_0_r, Rabs_R0. assert (0 <= rsum n (fun k => Rabs (lt i k) * Rabs (yv j k))) by (apply rsum_pos; intros; apply Rmult_le_pos; apply Rabs_pos). nra.
      + intros k Hk. unfold yv. destruct (Nat.ltb_spec k j); [ring|]. rewrite lt_zero by lia. ring.
    - destruct IH as (I1 & I2); [lia|]. rewrite Nat.add_succ_r. apply y_step; auto. lia. }
  replace n with (j + (n - j))%nat by lia. apply G. lia.
Qed.

(** ** the second: L' x = y *)
Definition xv (j q k : nat) : R := if Nat.ltb k q then 0 else oval (X j k).
Definition finx (j q : nat) : Prop := forall k, (q <= k < n)%nat -> exists v, X j k = Some v /\ vf v = true /\ sf_finite v = true.
Definition resx (j q : nat) : Prop := forall i, (q <= i < n)%nat ->
  Rabs (rsum n (fun k => lt k i * xv j q k) - yv j i) <= gam * rsum n (fun k => Rabs (lt k i) * Rabs (xv j q k)) + eps.
Lemma all_cols : rsum n (fun i => rsum n (fun k => lt k i * lt k i)) <= N * tau.
Proof. rewrite rsum_swap. apply all_rows. lia. Qed.
Lemma res_trail q (x : nat -> R) (r : nat -> R) : (forall i, (q <= i < n)%nat -> Rabs (r i) <= gam * rsum n (fun k => Rabs (lt k i) * Rabs (x k)) + eps) ->
  rsum n (fun p => if Nat.ltb p q then 0 else r p * r p) <= 2 * (gam * gam) * (N * tau) * rsum n (fun k => x k * x k) + 2 * N * (eps * eps).
Proof.
  intros Hr. destruct consts as (Hu & He & HN & Hg & Heh & Hl & Ht & Hep & _).
  pose proof (residual_sq n n (fun p => if Nat.ltb p q then 0 else r p) (fun i k => lt k i) x gam eps (N * tau) ltac:(lra) Hep) as H. cbv beta in H.
  rewrite (rsum_ext n (fun p => if Nat.ltb p q then 0 else r p * r p) (fun p => (if Nat.ltb p q then 0 else r p) * (if Nat.ltb p q then 0 else r p))) by (intros p _; destruct (Nat.ltb p q); ring).
  apply H; [|apply all_cols]. intros i Hi. destruct (Nat.ltb_spec i q); [|apply Hr; lia]. rewrite Rabs_R0.
  assert (0 <= rsum n (fun k => Rabs (lt k i) * Rabs (x k))) by (apply rsum_pos; intros; apply Rmult_le_pos; apply Rabs_pos). nra.
Qed.
Lemma x_norm j q : (j < n)%nat -> (j <= q <= n)%nat -> resx j q -> rsum n (fun k => xv j q k * xv j q k) <= 21 / lam ^ 2.
Proof.
  intros Hj Hq Hr. destruct consts as (Hu & He & HN & Hg & Heh & Hl & Ht & Hep & HP & HE & Eeps & G2 & G3 & G4 & G5). destruct tri_ok as (T1 & T2 & T3).
  destruct (y_all j Hj) as (_ & YR). pose proof (y_norm j n (Nat.le_refl n) YR) as YN.
  assert (X0 : forall k, (k < q)%nat -> xv j q k = 0) by (intros k Hk; unfold xv; destruct (Nat.ltb_spec k q); [reflexivity|lia]).
  pose proof (up_block n lt (3 / 4 * lam) T1 lt_zero T2 T3 q (xv j q) ltac:(lia) X0) as UB.
  set (r := fun i => rsum n (fun k => lt k i * xv j q k) - yv j i).
  pose proof (res_trail q (xv j q) r) as RS. specialize (RS ltac:(intros i Hi; unfold r; apply Hr, Hi)).
  set (x2 := rsum n (fun k => xv j q k * xv j q k)) in *. assert (X2 : 0 <= x2) by apply rsum_sq_abs.
  assert (TS : rsum n (fun p => if Nat.ltb p q then 0 else rsum n (fun k => lt k p * xv j q k) * rsum n (fun k => lt k p * xv j q k)) <= 2 * (rsum n (fun k => yv j k * yv j k) + rsum n (fun p => if Nat.ltb p q then 0 else r p * r p))).
  { rewrite <- rsum_plus, <- rsum_scal. apply rsum_le. intros p Hp. destruct (Nat.ltb p q); [nra|]. replace (rsum n (fun k => lt k p * xv j q k)) with (yv j p + r p) by (unfold r; ring).
    pose proof (Rle_0_sqr (yv j p - r p)) as Q. unfold Rsqr in Q. lra. }
  assert (B2 : 4 * (gam * gam) * (N * tau) * x2 <= lam / 4 * x2) by (apply Rmult_le_compat_r; lra).
  assert (B3 : lam / 2 * x2 <= 2 * (5 / lam) + 4 * N * (eps * eps)) by lra.
  apply Rmult_le_reg_l with (lam * lam); [nra|]. replace (lam * lam * (21 / lam ^ 2)) with 21 by (field; lra).
  assert (lam * (lam / 2 * x2) <= lam * (2 * (5 / lam) + 4 * N * (eps * eps))) by (apply Rmult_le_compat_l; lra).
  replace (lam * (2 * (5 / lam) + 4 * N * (eps * eps))) with (10 + 4 * N * (eps * eps) * lam) in H by (field; lra). lra.
Qed.
Lemma x_step j q : (j <= q)%nat -> (q < n)%nat -> finx j (S q) -> resx j (S q) -> finx j q /\ resx j q.
Proof.
  intros Hjq Hq HFt HRt. destruct (HY q Hq) as (r & Er & Hj). destruct (Hj j Hjq) as (_ & EX1 & EX2). destruct (recip_ok q r Hq Er) as (Vr & Fr & Dr & Br).
  destruct (F2 q Hq) as (Hlb & _). pose proof (x_norm j (S q) ltac:(lia) ltac:(lia) HRt) as XN. destruct consts as (Hu & He & HN & Hg & Heh & Hl & Ht & Hep & HP & HE & Eeps & G2 & G3 & G4 & G5).
  destruct (y_all j ltac:(lia)) as (YF & YR). pose proof (y_norm j n (Nat.le_refl n) YR) as YN. destruct (YF q ltac:(lia)) as (bb & Eb & Vb & Fb).
  assert (Ob : yv j q = val bb) by (unfold yv; destruct (Nat.ltb_spec q j); [lia|]; rewrite Eb; reflexivity).
  replace (q + 1)%nat with (S q) in EX1 by lia.
  assert (Sh : forall f : nat -> R, (forall k, (k < S q)%nat -> f k = 0) -> rsum (n - S q) (fun k => f (S q + k)%nat) = rsum n f).
  { intros f Hf. replace n with (S q + (n - S q))%nat at 2 by lia. rewrite rsum_shift, (rsum_zero (S q) f) by exact Hf. lra. }
  assert (Ox : forall k, (S q <= k)%nat -> xv j (S q) k = oval (X j k)) by (intros k Hk; unfold xv; destruct (Nat.ltb_spec k (S q)); [lia|reflexivity]).
  assert (X0 : forall k, (k < S q)%nat -> xv j (S q) k = 0) by (intros k Hk; unfold xv; destruct (Nat.ltb_spec k (S q)); [reflexivity|lia]).
  assert (E1 : rsum (n - S q) (fun k => oval (L (S q + k)%nat q) * oval (X j (S q + k)%nat)) = rsum n (fun k => lt k q * xv j (S q) k)).
  { rewrite <- (Sh (fun k => lt k q * xv j (S q) k)) by (intros k Hk; rewrite X0 by exact Hk; ring). apply rsum_ext. intros k Hk. rewrite lt_in by lia. rewrite Ox by lia. reflexivity. }
  assert (E2 : rsum (n - S q) (fun k => Rabs (oval (L (S q + k)%nat q)) * Rabs (oval (X j (S q + k)%nat))) = rsum n (fun k => Rabs (lt k q) * Rabs (xv j (S q) k))).
  { rewrite <- (Sh (fun k => Rabs (lt k q) * Rabs (xv j (S q) k))) by (intros k Hk; rewrite X0 by exact Hk; rewrite Rabs_R0; ring). apply rsum_ext. intros k Hk. rewrite lt_in by lia. rewrite Ox by lia. reflexivity. }
  destruct (solve_entry prec emax sz HF (S q) (n - S q) (fun k => L k q) (fun k => X j k) bb (l q q) r (1 + 16 / lam)) as (v & Ev & Vv & Fv & Hv); auto.
  { intros k Hk. destruct (F1 (S q + k)%nat q ltac:(lia) ltac:(lia)) as (x & Ex & Vx & _). eauto. }
  { intros k Hk. destruct (HFt (S q + k)%nat ltac:(lia)) as (x & Ex & Vx & _). eauto. }
  { intros k a Hk Ea. destruct (F1 (S q + k)%nat q ltac:(lia) ltac:(lia)) as (x & Ex & _ & Fx). congruence. }
  { intros k a Hk Ea. destruct (HFt (S q + k)%nat ltac:(lia)) as (x & Ex & _ & Fx). congruence. }
  { assert (Hz : 0 < / lam) by (apply Rinv_0_lt_compat, Hl). 
    apply (room_ok (n - S q) (val bb) _ _ ((N * tau + 21 / lam ^ 2) / 2)); [lia| | |].
    - rewrite <- Ob. pose proof (one_sq n (yv j) q Hq) as Q. set (yq := yv j q) in *. assert (E : yq * yq = Rabs yq * Rabs yq) by (rewrite <- Rabs_mult; symmetry; apply Rabs_pos_eq; nra).
      pose proof (Rle_0_sqr (Rabs yq - 1)) as P. unfold Rsqr in P. pose proof (Rabs_pos yq). nra.
    - rewrite E2. eapply Rle_trans; [apply cs_mean|]. assert (rsum n (fun p => lt p q * lt p q) <= N * tau); [|lra].
      eapply Rle_trans; [|apply all_cols].
      replace n with (q + S (n - S q))%nat at 2 by lia. rewrite rsum_shift. 
      assert (P1 : 0 <= rsum q (fun i => rsum n (fun k => lt k i * lt k i))) by (apply rsum_pos; intros; apply rsum_sq_abs).
      pose proof (rsum_part 1 (S (n - S q)) (fun k => rsum n (fun k0 => lt k0 (q + k)%nat * lt k0 (q + k)%nat)) ltac:(lia) ltac:(intros; apply rsum_sq_abs)) as P2.
      rewrite (rsum_last 0), Nat.add_0_r in P2. change (rsum 0 _) with 0 in P2. lra.
    - assert (0 < 5 / lam) by (unfold Rdiv; lra). lra. }
  rewrite <- Eb in Ev. rewrite <- EX1 in Ev. assert (Ev' : X j q = Some v) by (rewrite EX2; exact Ev). split.
  - intros k Hk. destruct (Nat.eq_dec k q) as [->|Hne]; [exists v; auto|apply HFt; lia].
  - assert (XE : forall k, xv j q k = if Nat.eqb k q then val v else xv j (S q) k).
    { intros k. unfold xv. destruct (Nat.eqb_spec k q) as [->|Hne].
      - destruct (Nat.ltb_spec q q); [lia|]. rewrite Ev'. reflexivity.
      - destruct (Nat.ltb_spec k q), (Nat.ltb_spec k (S q)); try lia; reflexivity. }
    intros i Hi. destruct (Nat.eq_dec i q) as [->|Hne].
    + assert (Q1 : rsum n (fun k => lt k q * xv j q k) = rsum n (fun k => lt k q * xv j (S q) k) + l q q * val v).
      { rewrite (rsum_ext n (fun k => lt k q * xv j q k) (fun k => lt k q * xv j (S q) k + (if Nat.eqb k q then lt k q * val v else 0))).
        - rewrite rsum_plus. f_equal. rewrite (rsum_one n _ q) by (first [lia|intros p Hp Hne; apply Nat.eqb_neq in Hne; rewrite Hne; reflexivity]). rewrite Nat.eqb_refl, lt_in by lia. reflexivity.
        - intros k Hk. rewrite XE. destruct (Nat.eqb_spec k q) as [->|]; [|ring]. rewrite X0 by lia. ring. }
      assert (Q2 : rsum n (fun k => Rabs (lt k q) * Rabs (xv j q k)) = rsum n (fun k => Rabs (lt k q) * Rabs (xv j (S q) k)) + Rabs (l q q * val v)).
      { rewrite (rsum_ext n (fun k => Rabs (lt k q) * Rabs (xv j q k)) (fun k => Rabs (lt k q) * Rabs (xv j (S q) k) + (if Nat.eqb k q then Rabs (lt k q * val v) else 0))).
        - rewrite rsum_plus. f_equal. rewrite (rsum_one n _ q) by (first [lia|intros p Hp Hne; apply Nat.eqb_neq in Hne; rewrite Hne; reflexivity]). rewrite Nat.eqb_refl, lt_in by lia. reflexivity.
        - intros k Hk. rewrite XE. destruct (Nat.eqb_spec k q) as [->|]; [|ring]. rewrite X0 by lia. rewrite Rabs_R0, Rabs_mult. ring. }
      rewrite Q1, Q2, Ob. rewrite E1, E2 in Hv.
      replace (rsum n (fun k => lt k q * xv j (S q) k) + l q q * val v - val bb) with (- (val bb - rsum n (fun k => lt k q * xv j (S q) k) - l q q * val v)) by ring. rewrite Rabs_Ropp.
      eapply Rle_trans; [exact Hv|]. apply tidy; [lia|lia| |apply Rabs_pos]. apply rsum_pos. intros. apply Rmult_le_pos; apply Rabs_pos.
    + pose proof (HRt i ltac:(lia)) as Q.
      rewrite (rsum_ext n (fun k => lt k i * xv j q k) (fun k => lt k i * xv j (S q) k)), (rsum_ext n (fun k => Rabs (lt k i) * Rabs (xv j q k)) (fun k => Rabs (lt k i) * Rabs (xv j (S q) k))); [exact Q|..];
        intros k Hk; rewrite XE; destruct (Nat.eqb_spec k q) as [->|]; try reflexivity; rewrite lt_zero by lia; rewrite ?Rabs_R0; ring.
Qed.
Lemma x_all j : (j < n)%nat -> finx j j /\ resx j j.
Proof.
  intros Hj. assert (G : forall d, (j <= n - d)%nat -> (d <= n)%nat -> finx j (n - d) /\ resx j (n - d)).
  { induction d as [|d IH]; intros Hd Hd'.
    - rewrite Nat.sub_0_r. split; intros k Hk; lia.
    - destruct IH as (I1 & I2); [lia|lia|]. replace (n - d)%nat with (S (n - S d)) in I1, I2 by lia. apply x_step; auto; lia. }
  pose proof (G (n - j)%nat ltac:(lia) ltac:(lia)) as Q. replace (n - (n - j))%nat with j in Q by lia. exact Q.
Qed.

(** ** accuracy *)
Lemma x_accurate j (ys t : nat -> R) : (j < n)%nat ->
  (forall i, (i < n)%nat -> rsum n (fun k => lt i k * ys k) = del i j) -> (forall p, (p < n)%nat -> rsum n (fun k => lt k p * t k) = ys p) ->
  forall i, (j <= i < n)%nat -> Rabs (oval (X j i) - t i) <= sqrt (sub_err2 prec emax n sig lam).
Proof.
  intros Hj Hys Ht' i Hi. destruct consts as (Hu & He & HN & Hg & Heh & Hl & Ht & Hep & HP & HE & Eeps & G2 & G3 & G4 & G5). destruct tri_ok as (T1 & T2 & T3).
  destruct (y_all j Hj) as (_ & YR). destruct (x_all j Hj) as (_ & XR). pose proof (y_norm j n (Nat.le_refl n) YR) as YN. pose proof (x_norm j j Hj ltac:(lia) XR) as XN.
  (* the first substitution *)
  set (dy := fun k => yv j k - ys k). set (r := fun i => rsum n (fun k => lt i k * yv j k) - del i j).
  pose proof (low_block n lt (3 / 4 * lam) T1 lt_zero T2 T3 n dy (Nat.le_refl n)) as LB.
  rewrite (rsum_ext n (fun i => rsum n (fun k => lt i k * dy k) * rsum n (fun k => lt i k * dy k)) (fun i => r i * r i)) in LB.
  2:{ intros p Hp. assert (E : rsum n (fun k => lt p k * dy k) = r p); [|rewrite E; reflexivity]. unfold r. rewrite <- (Hys p Hp), rsum_minus. apply rsum_ext. intros k Hk. unfold dy. ring. }
  assert (RS : rsum n (fun i => r i * r i) <= 2 * (gam * gam) * (N * tau) * rsum n (fun k => yv j k * yv j k) + 2 * N * (eps * eps)).
  { apply residual_sq with (l := lt); [lra|lra| |apply all_rows; lia]. intros p Hp. unfold r. apply YR, Hp. }
  (* the second *)
  set (dx := fun k => if Nat.ltb k j then 0 else oval (X j k) - t k). set (r2 := fun i => rsum n (fun k => lt k i * xv j j k) - yv j i).
  assert (D0 : forall k, (k < j)%nat -> dx k = 0) by (intros k Hk; unfold dx; destruct (Nat.ltb_spec k j); [reflexivity|lia]).
  pose proof (up_block n lt (3 / 4 * lam) T1 lt_zero T2 T3 j dx ltac:(lia) D0) as UB.
  pose proof (res_trail j (xv j j) r2) as RS2. specialize (RS2 ltac:(intros p Hp; unfold r2; apply XR, Hp)).
  assert (TS : rsum n (fun p => if Nat.ltb p j then 0 else rsum n (fun k => lt k p * dx k) * rsum n (fun k => lt k p * dx k)) <= 2 * (rsum n (fun k => dy k * dy k) + rsum n (fun p => if Nat.ltb p j then 0 else r2 p * r2 p))).
  { rewrite <- rsum_plus, <- rsum_scal. apply rsum_le. intros p Hp. destruct (Nat.ltb_spec p j) as [Hlt|Hge]; [nra|].
    assert (E : rsum n (fun k => lt k p * dx k) = dy p + r2 p).
    { unfold dy, r2. rewrite <- (Ht' p Hp). replace (yv j p - rsum n (fun k => lt k p * t k) + (rsum n (fun k => lt k p * xv j j k) - yv j p)) with (rsum n (fun k => lt k p * xv j j k) - rsum n (fun k => lt k p * t k)) by ring.
      rewrite rsum_minus. apply rsum_ext. intros k Hk. unfold dx, xv. destruct (Nat.ltb_spec k j); [rewrite lt_zero by lia; ring|ring]. }
    rewrite E. pose proof (Rle_0_sqr (dy p - r2 p)) as Q. unfold Rsqr in Q. lra. }
  set (gt := gam * gam * (N * tau)) in *. assert (Hgt : 0 <= gt) by (unfold gt; apply Rmult_le_pos; nra). set (ne := N * (eps * eps)). assert (Hne : 0 <= ne) by (unfold ne; nra).
  set (z := / lam). assert (Hz : 0 < z) by (apply Rinv_0_lt_compat, Hl). assert (Ez : lam * z = 1) by (unfold z; field; lra).
  replace (5 / lam) with (5 * z) in YN by (unfold z; field; lra). replace (21 / lam ^ 2) with (21 * (z * z)) in XN by (unfold z; field; lra).
  assert (Y1 : 3 / 4 * lam * rsum n (fun k => dy k * dy k) <= 10 * (gt * z) + 2 * ne).
  { eapply Rle_trans; [exact LB|]. eapply Rle_trans; [exact RS|]. assert (gt * rsum n (fun k => yv j k * yv j k) <= gt * (5 * z)) by (apply Rmult_le_compat_l; lra). unfold ne, gt in *. lra. }
  assert (Y2 : rsum n (fun k => dy k * dy k) <= 4 / 3 * z * (10 * (gt * z) + 2 * ne)).
  { replace (rsum n (fun k => dy k * dy k)) with (4 / 3 * z * (3 / 4 * lam * rsum n (fun k => dy k * dy k))) by (unfold z; field; lra). apply Rmult_le_compat_l; [lra|exact Y1]. }
  assert (X1 : rsum n (fun p => if Nat.ltb p j then 0 else r2 p * r2 p) <= 42 * (gt * (z * z)) + 2 * ne).
  { eapply Rle_trans; [exact RS2|]. assert (gt * rsum n (fun k => xv j j k * xv j j k) <= gt * (21 * (z * z))) by (apply Rmult_le_compat_l; lra). unfold ne, gt in *. lra. }
  assert (X2 : rsum n (fun k => dx k * dx k) <= 4 / 3 * z * (2 * (4 / 3 * z * (10 * (gt * z) + 2 * ne) + (42 * (gt * (z * z)) + 2 * ne)))).
  { replace (rsum n (fun k => dx k * dx k)) with (4 / 3 * z * (3 / 4 * lam * rsum n (fun k => dx k * dx k))) by (unfold z; field; lra). apply Rmult_le_compat_l; [lra|]. lra. }
  apply sqrt_abs_le. pose proof (one_sq n dx i ltac:(lia)) as O. unfold dx in O at 1 2. destruct (Nat.ltb_spec i j); [lia|]. eapply Rle_trans; [exact O|]. eapply Rle_trans; [exact X2|].
  unfold sub_err2. replace (256 * (gam * gam) * N * tau / lam ^ 3) with (256 * (gt * (z * (z * z)))) by (unfold gt, z; field; lra).
  replace (8 * N * (eps * eps) * (2 / lam + 1) / lam) with (8 * ne * (2 * z + 1) * z) by (unfold ne, z; field; lra).
  assert (0 <= gt * (z * (z * z))) by (apply Rmult_le_pos; [exact Hgt|apply Rmult_le_pos; nra]). assert (0 <= ne * z) by nra. assert (0 <= ne * (z * z)) by nra. nra.
Qed.

Lemma inv_finite i j : (i < n)%nat -> (j < n)%nat -> exists v, X i j = Some v /\ vf v = true /\ sf_finite v = true /\ Rabs (val v) <= 5 / lam.
Proof.
  destruct consts as (Hu & He & HN & Hg & Heh & Hl & _).
  assert (G : forall j i, (j <= i < n)%nat -> exists v, X j i = Some v /\ vf v = true /\ sf_finite v = true /\ Rabs (val v) <= 5 / lam).
  { intros p q Hq. destruct (x_all p ltac:(lia)) as (XF & XR). destruct (XF q Hq) as (v & Ev & Vv & Fv). exists v. split; [exact Ev|]. split; [exact Vv|]. split; [exact Fv|].
    set (z := / lam). assert (Hz : 0 < z) by (apply Rinv_0_lt_compat, Hl).
    pose proof (x_norm p p ltac:(lia) ltac:(lia) XR) as XN. pose proof (one_sq n (xv p p) q ltac:(lia)) as O. unfold xv in O at 1 2. destruct (Nat.ltb_spec q p); [lia|]. rewrite Ev in O. cbn [oval] in O.
    replace (5 / lam) with (sqrt ((5 * z) * (5 * z))).
    + apply sqrt_abs_le. replace (21 / lam ^ 2) with (21 * (z * z)) in XN by (unfold z; field; lra). nra.
    + rewrite sqrt_square by lra. reflexivity. }
  intros Hi Hj. destruct (Nat.le_ge_cases i j) as [Hle|Hge]; [apply G; lia|].
  destruct (G j i ltac:(lia)) as (v & Ev & Q). exists v. split; [|exact Q]. destruct (HY i Hi) as (r & _ & HH). destruct (HH j ltac:(lia)) as (_ & _ & E). rewrite <- E. exact Ev.
Qed.

(** against the inverse of any symmetric matrix close to L L' *)
Lemma inv_accurate (a W : nat -> nat -> R) d : (forall i j, (i < n)%nat -> (j < n)%nat -> a i j = a j i) -> eig_above n a lam -> inverse_of n a W -> 0 <= d ->
  (forall i j, (i < n)%nat -> (j < n)%nat -> Rabs (a i j - rsum n (fun k => l i k * l j k)) <= d) ->
  forall i j, (i < n)%nat -> (j < n)%nat -> exists v, X i j = Some v /\ vf v = true /\ sf_finite v = true /\ Rabs (val v) <= 5 / lam /\ Rabs (val v - W i j) <= inv_err prec emax n sig lam d.
Proof.
  intros Sa Ea IW Hd0 Hd. destruct consts as (Hu & He & HN & Hg & Heh & Hl & Ht & Hep & HP & HE & Eeps & G2 & G3 & G4 & G5). destruct tri_ok as (T1 & T2 & T3).
  assert (SW : forall i j, (i < n)%nat -> (j < n)%nat -> W i j = W j i).
  { intros i j Hi Hj. assert (E : forall p q, (p < n)%nat -> (q < n)%nat -> W p q = rsum n (fun k => rsum n (fun r => a k r * W r p) * W k q)).
    { intros p q Hp Hq. rewrite (rsum_one n _ p) by (first [lia|intros k Hk Hne; rewrite IW by assumption; apply Nat.eqb_neq in Hne; rewrite Hne; ring]). rewrite IW, Nat.eqb_refl by assumption. ring. }
    rewrite (E i j Hi Hj), (E j i Hj Hi). rewrite (rsum_ext n (fun k => rsum n (fun r => a k r * W r i) * W k j) (fun k => rsum n (fun r => a k r * W r i * W k j))) by (intros; apply rsum_mult_r).
    rewrite (rsum_ext n (fun k => rsum n (fun r => a k r * W r j) * W k i) (fun k => rsum n (fun r => a k r * W r j * W k i))) by (intros; apply rsum_mult_r).
    rewrite rsum_swap. apply rsum_ext. intros k Hk. apply rsum_ext. intros r Hr. rewrite (Sa r k) by assumption. ring. }
  assert (G : forall j i, (j <= i < n)%nat -> exists v, X j i = Some v /\ vf v = true /\ sf_finite v = true /\ Rabs (val v) <= 5 / lam /\ Rabs (val v - W i j) <= inv_err prec emax n sig lam d).
  { intros j i Hi. destruct (x_all j ltac:(lia)) as (XF & XR). destruct (XF i Hi) as (v & Ev & Vv & Fv). exists v. split; [exact Ev|]. split; [exact Vv|]. split; [exact Fv|].
    set (z := / lam). assert (Hz : 0 < z) by (apply Rinv_0_lt_compat, Hl). split.
    - pose proof (x_norm j j ltac:(lia) ltac:(lia) XR) as XN. pose proof (one_sq n (xv j j) i ltac:(lia)) as O. unfold xv in O at 1 2. destruct (Nat.ltb_spec i j); [lia|]. rewrite Ev in O. cbn [oval] in O.
      replace (5 / lam) with (sqrt ((5 * z) * (5 * z))). 
      + apply sqrt_abs_le. replace (21 / lam ^ 2) with (21 * (z * z)) in XN by (unfold z; field; lra). nra.
      + rewrite sqrt_square by lra. reflexivity.
    - destruct (fwd_solve n lt (fun p => del p j) T1 lt_zero) as (ys & Hys & _). destruct (tri_solve n lt ys T1 lt_zero) as (t & Htt).
      pose proof (x_accurate j ys t ltac:(lia) Hys Htt i Hi) as XA. rewrite Ev in XA. cbn [oval] in XA.
      unfold inv_err. replace (val v - W i j) with ((val v - t i) + (t i - W i j)) by ring. eapply Rle_trans; [apply Rabs_triang|]. apply Rplus_le_compat; [exact XA|].
      set (T := fun i j => rsum n (fun k => lt i k * lt j k)). set (w := fun k => W k j). set (dv := fun k => t k - w k).
      assert (TT : forall p, (p < n)%nat -> rsum n (fun k => T p k * t k) = del p j).
      { intros p Hp. rewrite <- (Hys p Hp). unfold T. rewrite (rsum_ext n _ (fun k => rsum n (fun q => lt p q * (lt k q * t k)))) by (intros k Hk; rewrite rsum_mult_r; apply rsum_ext; intros; ring).
        rewrite rsum_swap. apply rsum_ext. intros q Hq. rewrite <- (Htt q Hq), <- rsum_scal. reflexivity. }
      assert (Td : forall p, (p < n)%nat -> rsum n (fun k => T p k * dv k) = rsum n (fun k => (a p k - T p k) * w k)).
      { intros p Hp. rewrite (rsum_ext n (fun k => T p k * dv k) (fun k => T p k * t k - T p k * w k)) by (intros; unfold dv; ring). rewrite <- rsum_minus, (TT p Hp).
        rewrite (rsum_ext n (fun k => (a p k - T p k) * w k) (fun k => a p k * w k - T p k * w k)) by (intros; ring). rewrite <- rsum_minus. f_equal. unfold w, del. symmetry. apply IW; lia. }
      (* norms *)
      assert (Nd : 3 / 4 * lam * rsum n (fun k => dv k * dv k) <= rsum n (fun p => dv p * rsum n (fun k => (a p k - T p k) * w k))).
      { eapply Rle_trans; [apply T3|]. right. rewrite <- (rsum_ext n (fun p => dv p * rsum n (fun k => T p k * dv k)) (fun p => dv p * rsum n (fun k => (a p k - T p k) * w k))) by (intros p Hp; rewrite Td by exact Hp; reflexivity).
        transitivity (rsum n (fun p => rsum n (fun q => lt q p * dv q * rsum n (fun k => lt k p * dv k)))).
        - apply rsum_ext. intros p Hp. rewrite rsum_mult_r. reflexivity.
        - rewrite rsum_swap. apply rsum_ext. intros q Hq. unfold T. rewrite <- rsum_scal.
          rewrite (rsum_ext n (fun k => dv q * (rsum n (fun k0 => lt q k0 * lt k k0) * dv k)) (fun k => rsum n (fun p => lt q p * dv q * (lt k p * dv k)))) by (intros k Hk; rewrite rsum_mult_r, <- rsum_scal; apply rsum_ext; intros; ring).
          rewrite rsum_swap. apply rsum_ext. intros p Hp. rewrite <- rsum_scal. reflexivity. }
      set (s1 := rsum n (fun k => Rabs (dv k))) in *. set (s2 := rsum n (fun k => Rabs (w k))) in *.
      assert (P1 : 0 <= s1) by (apply rsum_pos; intros; apply Rabs_pos). assert (P2 : 0 <= s2) by (apply rsum_pos; intros; apply Rabs_pos).
      assert (Nb : 3 / 4 * lam * rsum n (fun k => dv k * dv k) <= d * (s1 * s2)).
      { eapply Rle_trans; [exact Nd|]. unfold s1. rewrite rsum_mult_r, <- rsum_scal. apply rsum_le. intros p Hp. eapply Rle_trans; [apply Rle_abs|]. rewrite Rabs_mult. replace (d * (Rabs (dv p) * s2)) with (Rabs (dv p) * (d * s2)) by ring. apply Rmult_le_compat_l; [apply Rabs_pos|].
        eapply Rle_trans; [apply rsum_abs|]. unfold s2. rewrite <- rsum_scal. apply rsum_le. intros k Hk. rewrite Rabs_mult. apply Rmult_le_compat_r; [apply Rabs_pos|].
        unfold T. rewrite (rsum_ext n (fun q => lt p q * lt k q) (fun q => l p q * l k q)) by (intros; rewrite !lt_in by lia; reflexivity). apply Hd; assumption. }
      set (v2 := rsum n (fun k => dv k * dv k)) in *. assert (V2 : 0 <= v2) by apply rsum_sq_abs. set (w2 := rsum n (fun k => w k * w k)) in *. assert (W2 : 0 <= w2) by apply rsum_sq_abs.
      pose proof (sum_sq n dv) as S1. fold s1 v2 in S1. pose proof (sum_sq n w) as S2. fold s2 w2 in S2.
      (* |w|^2 <= 1 / lam^2 *)
      assert (WB : w2 <= z * z).
      { pose proof (Ea w) as Q. fold w2 in Q. unfold quad in Q.
        rewrite (rsum_ext n _ (fun p => if Nat.eqb p j then w p else 0)) in Q.
        2:{ intros p Hp. rewrite (rsum_ext n _ (fun k => w p * (a p k * w k))) by (intros; ring). rewrite rsum_scal. unfold w at 2. rewrite IW by lia. destruct (Nat.eqb p j); ring. }
        rewrite (rsum_one n _ j) in Q by (first [lia|intros p Hp Hne; apply Nat.eqb_neq in Hne; rewrite Hne; reflexivity]). rewrite Nat.eqb_refl in Q.
        pose proof (one_sq n w j ltac:(lia)) as O. fold w2 in O.
        assert (Q2 : (lam * w2) * (lam * w2) <= w2). { eapply Rle_trans; [|exact O]. assert (0 <= lam * w2) by nra. apply Rmult_le_compat; lra. }
        assert (Ez : lam * z = 1) by (unfold z; field; lra).
        destruct (Rle_lt_or_eq_dec 0 w2 W2) as [Hp|He0]; [|nra].
        assert (lam * lam * w2 <= 1). { apply Rmult_le_reg_r with w2; [exact Hp|]. nra. }
        replace w2 with ((z * z) * (lam * lam * w2)) by (unfold z; field; lra). nra. }
      (* combine *)
      assert (B : (3 / 4 * lam) * (3 / 4 * lam) * v2 <= (d * N) * (d * N) * w2).
      { assert (K1 : (3 / 4 * lam * v2) * (3 / 4 * lam * v2) <= (d * (s1 * s2)) * (d * (s1 * s2))) by (apply Rmult_le_compat; nra).
        assert (K2 : (d * (s1 * s2)) * (d * (s1 * s2)) <= d * d * ((N * v2) * (N * w2))).
        { replace ((d * (s1 * s2)) * (d * (s1 * s2))) with (d * d * ((s1 * s1) * (s2 * s2))) by ring. apply Rmult_le_compat_l; [nra|]. apply Rmult_le_compat; nra. }
        destruct (Rle_lt_or_eq_dec 0 v2 V2) as [Hp|He0]; [|rewrite <- He0, Rmult_0_r; apply Rmult_le_pos; [nra|exact W2]].
        apply Rmult_le_reg_r with v2; [exact Hp|]. nra. }
      replace (2 * N * d / lam ^ 2) with (sqrt ((2 * N * d * (z * z)) * (2 * N * d * (z * z)))).
      2:{ rewrite sqrt_square; [unfold z; field; lra|]. apply Rmult_le_pos; nra. }
      apply sqrt_abs_le. eapply Rle_trans; [apply (one_sq n dv i); lia|]. fold v2.
      assert (Ez : lam * z = 1) by (unfold z; field; lra).
      assert (v2 <= 16 / 9 * (z * z) * ((d * N) * (d * N) * w2)).
      { replace v2 with (16 / 9 * (z * z) * ((3 / 4 * lam) * (3 / 4 * lam) * v2)) by (unfold z; field; lra). apply Rmult_le_compat_l; [nra|exact B]. }
      eapply Rle_trans; [exact H|]. assert ((d * N) * (d * N) * w2 <= (d * N) * (d * N) * (z * z)) by (apply Rmult_le_compat_l; [nra|exact WB]).
      assert (0 <= z * z) by nra. assert (0 <= (d * N) * (d * N) * (z * z)) by (apply Rmult_le_pos; nra). nra. }
  intros i j Hi Hj. destruct (Nat.le_ge_cases i j) as [Hle|Hge].
  - destruct (G i j ltac:(lia)) as (v & Ev & Q). exists v. split; [exact Ev|]. rewrite (SW i j) by assumption. exact Q.
  - destruct (G j i ltac:(lia)) as (v & Ev & Q). exists v. split; [|exact Q]. destruct (HY i Hi) as (r & _ & HH). destruct (HH j ltac:(lia)) as (_ & _ & E). rewrite <- E. exact Ev.
Qed.
End Inv.
