(** * The rounded update of a single measured component against the exact one; near-symmetry; variances with a margin stay positive *)
From Coq Require Import ZArith Reals Lia Lra Psatz.
From Flocq Require Import Core BinarySingleNaN.
From Verif Require Import Prelude Spec Matrix Filter SpecFilter FloatNum SpecFloats SpecReal SpecRange FloatGen FloatFlocq FloatOps FloatErr FloatInt FloatPredict FloatFactor FloatUpdate FloatGain FloatRange FloatScalar.
Import SpecFloat.
Open Scope R_scope.

Lemma rsum_swap a b (f : nat -> nat -> R) : rsum a (fun i => rsum b (fun j => f i j)) = rsum b (fun j => rsum a (fun i => f i j)).
Proof.
  revert f. induction a as [|a IH]; intros f.
  - cbn [rsum]. induction b as [|b IHb]; cbn [rsum]; lra.
  - cbn [rsum]. rewrite IH. clear IH. induction b as [|b IHb]; cbn [rsum]; [ring|]. rewrite <- IHb. ring.
Qed.
Lemma rsum_mult_r a (f : nat -> R) x : rsum a f * x = rsum a (fun i => f i * x).
Proof. induction a as [|a IH]; cbn [rsum]; [ring|]. rewrite <- IH. ring. Qed.
Lemma pred_sym n A P Q : sym_on n P -> sym_on n Q -> sym_on n (pred_P n A P Q).
Proof.
  intros HP HQ i j Hi Hj. unfold pred_P. rewrite (HQ i j Hi Hj). f_equal.
  transitivity (rsum n (fun k => rsum n (fun l => A i l * P l k * A j k))); [apply rsum_ext; intros; apply rsum_mult_r|]. rewrite rsum_swap.
  apply rsum_ext. intros l Hl. rewrite rsum_mult_r. apply rsum_ext. intros k Hk. rewrite (HP l k Hl Hk). ring.
Qed.
Lemma post_sym n r H P : sym_on n P -> sym_on n (post_P n r H P).
Proof.
  intros HP i j Hi Hj. unfold post_P. rewrite (HP i j Hi Hj). f_equal. assert (E : forall i, (i < n)%nat -> ph n H P i = hp n H P i).
  { intros k Hk. apply rsum_ext. intros l Hl. rewrite (HP k l Hk Hl). ring. }
  rewrite !E by assumption. unfold Rdiv. ring.
Qed.

Section Forward.
Variables (c : cfg) (prec emax : Z) (sz : bool).
Hypothesis HF : format_ok prec emax.
Notation NN := (sf_num prec emax sz).
Notation u := (uro prec). Notation eta := (eta prec emax).

Lemma scalar_forward n (o : observation spec_float) (f : kalman spec_float) : (255 <= usize_max c)%nat -> (4 <= emax)%Z -> (1 <= n)%nat -> ob_valid c n 1 o -> kf_valid c n f ->
  kf_format prec emax f -> all_in_format prec emax (kf_px f) -> all_in_format prec emax (kf_tP f) -> ob_format prec emax o ->
  fin_matrix n 1 (kf_x f) -> fin_matrix n n (kf_P f) -> fin_matrix 1 n (ob_H o) -> fin_matrix 1 1 (ob_z o) -> fin_matrix 1 1 (ob_R o) ->
  let H := rcell n (ob_H o) 0 in let P := rcell n (kf_P f) in let r := rcell 1 (ob_R o) 0 0 in let z := rcell 1 (ob_z o) 0 0 in let x := fun i => rcell 1 (kf_x f) i 0 in
  scalar_room prec emax n r z H x P ->
  exists o' f', correct c NN n 1 o f = Ok (o', f') /\ fin_matrix n 1 (kf_x f') /\ fin_matrix n n (kf_P f') /\
    (forall i, (i < n)%nat -> Rabs (rcell 1 (kf_x f') i 0 - post_x n r z H x P i) <= state_err prec emax n r z H x P i) /\
    (forall i j, (i < n)%nat -> (j < n)%nat -> Rabs (rcell n (kf_P f') i j - post_P n r H P i j) <= cov_err prec emax n r H P i j).
Proof.
  intros Hc He Hn Ho Hf Ff F1 F2 Fo Ix IP IH Iz IR H P r z x HR.
  destruct (scalar_fin c prec emax sz HF n o f He Hn Ho Hf Ff F1 F2 Fo Ix IP IH Iz IR HR) as (o' & f' & E & IS & IK & IX & IPp & BK).
  exists o', f'. split; [exact E|]. split; [exact IX|]. split; [exact IPp|].
  destruct (correct_err c prec emax sz HF n 1 o f Hn (le_n 1) Ho Hf Ff F1 F2 Fo) as (o2 & f2 & E2 & BY & _ & BX & BP). rewrite E in E2. injection E2 as <- <-.
  destruct (scalar_gain c prec emax sz HF n o f Hc He Hn Ho Hf Ff F1 F2 Fo) as (o2 & f2 & E2 & BG). rewrite E in E2. injection E2 as <- <-.
  destruct (correct_fin c prec emax sz HF n 1 o f Hn (le_n 1) Ho Hf Ff F1 F2 Fo Ix IP IH Iz) as (o2 & f2 & E2 & FY & _). rewrite E in E2. injection E2 as <- <-.
  destruct HR as (SV & SR & SI & SY & SG). pose proof (u_small prec emax HF) as Hu. pose proof (eta_pos prec emax) as Heta.
  destruct (IS 0%nat 0%nat (le_n 1) (le_n 1)) as (w & Ew & Fw).
  assert (VE : 0 <= in_var_err prec emax n r H P).
  { unfold in_var_err. cbv zeta. pose proof (pow_R1_Rle (1 + u) (n + n + 1) ltac:(lra)). pose proof (pos_INR n).
    apply Rplus_le_le_0_compat; [apply Rmult_le_pos; [lra|]|apply Rmult_le_pos; [apply Rmult_le_pos; lra|]]; apply Rplus_le_le_0_compat; try apply Rabs_pos; auto.
    - apply rsum_pos. intros. apply Rmult_le_pos; [apply rsum_pos; intros; apply Rmult_le_pos; apply Rabs_pos|apply Rabs_pos].
    - apply Rmult_le_pos; auto. apply rsum_pos. intros. apply Rabs_pos. }
  assert (HS : 0 < in_var n r H P) by lra.
  (* the gain *)
  assert (GE : forall i, (i < n)%nat -> Rabs (rcell 1 (ob_K o') i 0 * in_var n r H P - ph n H P i) <= gain_err prec emax n r H P i).
  { intros i Hi. destruct (IX i 0%nat Hi (le_n 1)) as (v & Ev & Fv). specialize (BG i v w Hi Ev Fv Ew Fw). cbv zeta in BG. fold H P r in BG.
    eapply Rle_trans; [exact BG|]. unfold gain_err. cbv zeta. change (r + rsum n _) with (in_var n r H P). do 2 apply Rplus_le_compat_r.
    apply Rmult_le_compat_r; [exact VE|]. apply BK, Hi. }
  assert (GE' : forall i, (i < n)%nat -> Rabs (rcell 1 (ob_K o') i 0 - ph n H P i / in_var n r H P) <= gain_err prec emax n r H P i / in_var n r H P).
  { intros i Hi. specialize (GE i Hi). replace (rcell 1 (ob_K o') i 0 - ph n H P i / in_var n r H P) with ((rcell 1 (ob_K o') i 0 * in_var n r H P - ph n H P i) * / in_var n r H P) by (field; lra).
    rewrite Rabs_mult, (Rabs_pos_eq (/ _)) by (left; apply Rinv_0_lt_compat, HS). unfold Rdiv. apply Rmult_le_compat_r; [left; apply Rinv_0_lt_compat, HS|exact GE]. }
  (* the innovation *)
  assert (NE : Rabs (rcell 1 (ob_y o') 0 0 - innov n z H x) <= inn_err prec emax n z H x).
  { destruct (FY 0%nat (le_n 1) SY) as (y' & Ey' & Fy'). destruct (BY 0%nat (le_n 1)) as (y & Ey & _ & By). assert (y' = y) by congruence. subst y'. specialize (By Fy'). cbv zeta in By.
    unfold rcell at 1. rewrite Ey. unfold innov, inn_err. cbv zeta. fold z in By.
    replace (z - rsum n (fun l => H l * x l)) with (z + rsum n (fun k => - rcell n (ob_H o) 0 k * rcell 1 (kf_x f) k 0)).
    - eapply Rle_trans; [exact By|]. right. f_equal. f_equal. f_equal. apply rsum_ext. intros. rewrite Rabs_Ropp. reflexivity.
    - unfold Rminus. f_equal. assert (G : forall K g, rsum K (fun l => - g l) = - rsum K g) by (induction K as [|K IHK]; intros g; cbn [rsum]; [ring|rewrite IHK; ring]).
      rewrite <- G. apply rsum_ext. intros. unfold H, x. ring. }
  assert (NA : Rabs (innov n z H x) <= Rabs z + rsum n (fun l => Rabs (H l) * Rabs (x l))).
  { unfold innov, Rminus. eapply Rle_trans; [apply Rabs_triang|]. rewrite Rabs_Ropp. apply Rplus_le_compat_l. eapply Rle_trans; [apply rsum_abs|]. right. apply rsum_ext. intros. apply Rabs_mult. }
  assert (NM : Rabs (rcell 1 (ob_y o') 0 0) <= inn_max prec emax n z H x).
  { replace (rcell 1 (ob_y o') 0 0) with ((rcell 1 (ob_y o') 0 0 - innov n z H x) + innov n z H x) by ring. eapply Rle_trans; [apply Rabs_triang|].
    unfold inn_max. unfold inn_err in NE. cbv zeta in NE. set (a := Rabs z + _) in *. set (q := (1 + u) ^ (n + 1)) in *.
    apply Rle_trans with (((q - 1) * a + q * eta * INR n) + a); [lra|]. right. ring. }
  split.
  - intros i Hi. destruct (IX i 0%nat Hi (le_n 1)) as (v' & Ev' & Fv). destruct (BX i Hi) as (v & Ev & _ & Bv). assert (v' = v) by congruence. subst v'. specialize (Bv Fv). cbv zeta in Bv.
    unfold rcell at 1. rewrite Ev. cbn [rsum] in Bv. rewrite !Rplus_0_l in Bv. change (rcell 1 (kf_x f) i 0) with (x i) in Bv. change (1 + 1)%nat with 2%nat in Bv. cbn [INR] in Bv.
    set (k := rcell 1 (ob_K o') i 0) in *. set (y := rcell 1 (ob_y o') 0 0) in *. unfold post_x, state_err. cbv zeta. set (S := in_var n r H P) in *. set (Y := innov n z H x) in *.
    set (C := ph n H P i) in *. specialize (GE' i Hi). fold k S C in GE'. specialize (BK i Hi). fold H P r k in BK. set (gm := gain_max prec emax n r H P i) in *.
    replace (val v - (x i + C * Y / S)) with ((val v - (x i + k * y)) + k * (y - Y) + (k - C / S) * Y) by (unfold Rdiv; ring).
    eapply Rle_trans; [apply Rabs_triang|]. eapply Rle_trans; [apply Rplus_le_compat_r, Rabs_triang|]. rewrite !Rabs_mult.
    assert (T1 : Rabs k * Rabs y <= gm * inn_max prec emax n z H x) by (apply Rmult_le_compat; auto; apply Rabs_pos).
    assert (T2 : Rabs k * Rabs (y - Y) <= gm * inn_err prec emax n z H x) by (apply Rmult_le_compat; auto; apply Rabs_pos).
    assert (T3 : Rabs (k - C / S) * Rabs Y <= gain_err prec emax n r H P i * Rabs Y / S).
    { replace (gain_err prec emax n r H P i * Rabs Y / S) with (gain_err prec emax n r H P i / S * Rabs Y) by (unfold Rdiv; ring). apply Rmult_le_compat_r; [apply Rabs_pos|exact GE']. }
    pose proof (pow_R1_Rle (1 + u) 2 ltac:(lra)) as Hq. set (q := (1 + u) ^ 2) in *.
    assert (T4 : (q - 1) * (Rabs (x i) + Rabs k * Rabs y) <= (q - 1) * (Rabs (x i) + gm * inn_max prec emax n z H x)) by (apply Rmult_le_compat_l; lra). lra.
  - intros i j Hi Hj. destruct (IPp i j Hi Hj) as (v' & Ev' & Fv). destruct (BP i j Hi Hj) as (v & Ev & _ & Bv). assert (v' = v) by congruence. subst v'. specialize (Bv Fv). cbv zeta in Bv.
    unfold rcell at 1. rewrite Ev. cbn [rsum] in Bv. rewrite !Rplus_0_l in Bv. rewrite Rabs_Ropp in Bv. replace (n + 1 + 1)%nat with (n + 2)%nat in Bv by lia. cbn [INR] in Bv.
    change (rcell n (kf_P f)) with P in Bv. change (rcell n (ob_H o) 0) with H in Bv. change (rsum n (fun l => H l * P l j)) with (hp n H P j) in Bv.
    set (k := rcell 1 (ob_K o') i 0) in *. unfold post_P, cov_err. cbv zeta. set (S := in_var n r H P) in *.
    set (C := ph n H P i) in *. set (D := hp n H P j) in *. specialize (GE' i Hi). fold k S C in GE'. specialize (BK i Hi). fold H P r k in BK. set (gm := gain_max prec emax n r H P i) in *.
    set (aD := rsum n (fun l => Rabs (H l) * Rabs (P l j))) in *. assert (HaD : 0 <= aD) by (apply rsum_pos; intros; apply Rmult_le_pos; apply Rabs_pos).
    replace (val v - (P i j - C * D / S)) with ((val v - (P i j + D * - k)) + - ((k - C / S) * D)) by (unfold Rdiv; ring).
    eapply Rle_trans; [apply Rabs_triang|]. rewrite Rabs_Ropp, Rabs_mult.
    assert (T1 : aD * Rabs k <= aD * gm) by (apply Rmult_le_compat_l; auto).
    assert (T3 : Rabs (k - C / S) * Rabs D <= gain_err prec emax n r H P i * Rabs D / S).
    { replace (gain_err prec emax n r H P i * Rabs D / S) with (gain_err prec emax n r H P i / S * Rabs D) by (unfold Rdiv; ring). apply Rmult_le_compat_r; [apply Rabs_pos|exact GE']. }
    pose proof (pow_R1_Rle (1 + u) (n + 2) ltac:(lra)) as Hq. set (q := (1 + u) ^ (n + 2)) in *. pose proof (pos_INR n) as HI.
    assert (T4 : (q - 1) * (Rabs (P i j) + aD * Rabs k) <= (q - 1) * (Rabs (P i j) + aD * gm)) by (apply Rmult_le_compat_l; lra).
    assert (T5 : q * eta * (INR n * Rabs k + 1) <= q * eta * (INR n * gm + 1)). { apply Rmult_le_compat_l; [apply Rmult_le_pos; lra|]. apply Rplus_le_compat_r, Rmult_le_compat_l; auto. }
    lra.
Qed.

(** a posterior variance that exceeds the error bound is computed as a positive number *)
Lemma scalar_positive n (o : observation spec_float) (f : kalman spec_float) : (255 <= usize_max c)%nat -> (4 <= emax)%Z -> (1 <= n)%nat -> ob_valid c n 1 o -> kf_valid c n f ->
  kf_format prec emax f -> all_in_format prec emax (kf_px f) -> all_in_format prec emax (kf_tP f) -> ob_format prec emax o ->
  fin_matrix n 1 (kf_x f) -> fin_matrix n n (kf_P f) -> fin_matrix 1 n (ob_H o) -> fin_matrix 1 1 (ob_z o) -> fin_matrix 1 1 (ob_R o) ->
  let H := rcell n (ob_H o) 0 in let P := rcell n (kf_P f) in let r := rcell 1 (ob_R o) 0 0 in let z := rcell 1 (ob_z o) 0 0 in let x := fun i => rcell 1 (kf_x f) i 0 in
  scalar_room prec emax n r z H x P ->
  exists o' f', correct c NN n 1 o f = Ok (o', f') /\
    forall i, (i < n)%nat -> cov_err prec emax n r H P i i < post_P n r H P i i -> exists v, cell n (kf_P f') i i = Some v /\ sf_finite v = true /\ 0 < val v.
Proof.
  intros Hc He Hn Ho Hf Ff F1 F2 Fo Ix IP IH Iz IR H P r z x HR.
  destruct (scalar_forward n o f Hc He Hn Ho Hf Ff F1 F2 Fo Ix IP IH Iz IR HR) as (o' & f' & E & _ & FP & _ & B). exists o', f'. split; [exact E|]. intros i Hi Hm.
  destruct (FP i i Hi Hi) as (v & Ev & Fv). exists v. split; [exact Ev|]. split; [exact Fv|]. specialize (B i i Hi Hi). unfold rcell at 1 in B. rewrite Ev in B. fold H P r in B.
  pose proof (Rle_abs (- (val v - post_P n r H P i i))) as HA. rewrite Rabs_Ropp in HA. lra.
Qed.
(** near symmetry after a correction *)
Lemma scalar_near_sym n (o : observation spec_float) (f : kalman spec_float) : (255 <= usize_max c)%nat -> (4 <= emax)%Z -> (1 <= n)%nat -> ob_valid c n 1 o -> kf_valid c n f ->
  kf_format prec emax f -> all_in_format prec emax (kf_px f) -> all_in_format prec emax (kf_tP f) -> ob_format prec emax o ->
  fin_matrix n 1 (kf_x f) -> fin_matrix n n (kf_P f) -> fin_matrix 1 n (ob_H o) -> fin_matrix 1 1 (ob_z o) -> fin_matrix 1 1 (ob_R o) ->
  let H := rcell n (ob_H o) 0 in let P := rcell n (kf_P f) in let r := rcell 1 (ob_R o) 0 0 in let z := rcell 1 (ob_z o) 0 0 in let x := fun i => rcell 1 (kf_x f) i 0 in
  scalar_room prec emax n r z H x P -> sym_on n P ->
  exists o' f', correct c NN n 1 o f = Ok (o', f') /\ forall i j, (i < n)%nat -> (j < n)%nat ->
    Rabs (rcell n (kf_P f') i j - rcell n (kf_P f') j i) <= cov_err prec emax n r H P i j + cov_err prec emax n r H P j i.
Proof.
  intros Hc He Hn Ho Hf Ff F1 F2 Fo Ix IP IH Iz IR H P r z x HR HS.
  destruct (scalar_forward n o f Hc He Hn Ho Hf Ff F1 F2 Fo Ix IP IH Iz IR HR) as (o' & f' & E & _ & _ & _ & B). exists o', f'. split; [exact E|]. intros i j Hi Hj.
  pose proof (B i j Hi Hj) as B1. pose proof (B j i Hj Hi) as B2. fold H P r in B1, B2. rewrite (post_sym n r H P HS j i Hj Hi) in B2.
  set (a := rcell n (kf_P f') i j) in *. set (b := rcell n (kf_P f') j i) in *. set (e := post_P n r H P i j) in *. replace (a - b) with ((a - e) + - (b - e)) by ring.
  eapply Rle_trans; [apply Rabs_triang|]. rewrite Rabs_Ropp. lra.
Qed.
(** near symmetry after a prediction *)
Lemma predict_forward n (f : kalman spec_float) : (1 <= n)%nat -> kf_valid c n f -> kf_format prec emax f ->
  let A := rcell n (kf_A f) in let P := rcell n (kf_P f) in let Q := rcell n (kf_Q f) in
  exists f', predict c NN n f = Ok f' /\ forall i j v, (i < n)%nat -> (j < n)%nat -> cell n (kf_P f') i j = Some v -> sf_finite v = true ->
    Rabs (val v - pred_P n A P Q i j) <= pred_err prec emax n A P Q i j.
Proof.
  intros Hn Hf Ff A P Q. destruct (predict_err c prec emax sz HF n f Hn Hf Ff) as (f' & E & _ & B). exists f'. split; [exact E|]. intros i j v Hi Hj Ev Fv.
  destruct (B i j Hi Hj) as (v' & Ev' & _ & Bv). assert (v' = v) by congruence. subst v'. specialize (Bv Fv). cbv zeta in Bv. fold A P Q in Bv.
  unfold pred_P, pred_err. cbv zeta. rewrite (Rplus_comm (Q i j)). eapply Rle_trans; [exact Bv|]. replace (2 * n + 1)%nat with (n + n + 1)%nat by lia.
  pose proof (u_small prec emax HF) as Hu. pose proof (eta_pos prec emax) as Heta. rewrite (Rplus_comm (rsum n _)). apply Rplus_le_compat_l.
  assert (HW : 0 <= rsum n (fun k => Rabs (A j k))) by (apply rsum_pos; intros; apply Rabs_pos). set (W := rsum n (fun k => Rabs (A j k))) in *. clear Bv B.
  replace ((1 + u) ^ (n + n + 1)) with ((1 + u) ^ (n + 1) * (1 + u) ^ n) by (rewrite <- pow_add; f_equal; lia).
  pose proof (pow_R1_Rle (1 + u) (n + 1) ltac:(lra)). pose proof (pow_R1_Rle (1 + u) n ltac:(lra)). set (a := (1 + u) ^ (n + 1)) in *. set (b := (1 + u) ^ n) in *. pose proof (pos_INR n). set (N := INR n) in *.
  assert (0 <= N * a * eta) by (apply Rmult_le_pos; [apply Rmult_le_pos; lra|lra]).
  replace (a * b * eta * (N * W + N)) with (N * a * eta * (b * W + b)) by ring. apply Rmult_le_compat_l; lra.
Qed.
Lemma predict_near_sym n (f : kalman spec_float) : (1 <= n)%nat -> kf_valid c n f -> kf_format prec emax f ->
  let A := rcell n (kf_A f) in let P := rcell n (kf_P f) in let Q := rcell n (kf_Q f) in sym_on n P -> sym_on n Q ->
  exists f', predict c NN n f = Ok f' /\ forall i j v w, (i < n)%nat -> (j < n)%nat ->
    cell n (kf_P f') i j = Some v -> cell n (kf_P f') j i = Some w -> sf_finite v = true -> sf_finite w = true ->
    Rabs (val v - val w) <= pred_err prec emax n A P Q i j + pred_err prec emax n A P Q j i.
Proof.
  intros Hn Hf Ff A P Q HP HQ. destruct (predict_forward n f Hn Hf Ff) as (f' & E & B). exists f'. split; [exact E|]. intros i j v w Hi Hj Ev Ew Fv Fw.
  pose proof (B i j v Hi Hj Ev Fv) as B1. pose proof (B j i w Hj Hi Ew Fw) as B2. fold A P Q in B1, B2. rewrite (pred_sym n A P Q HP HQ j i Hj Hi) in B2.
  set (e := pred_P n A P Q i j) in *. replace (val v - val w) with ((val v - e) + - (val w - e)) by ring. eapply Rle_trans; [apply Rabs_triang|]. rewrite Rabs_Ropp. lra.
Qed.
End Forward.
