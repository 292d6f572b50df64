(** * Upper bounds of the rounding errors of a floating-point filter, computed in the integers *)
From Coq Require Import ZArith QArith Qabs Qreals Reals Lra Psatz Lia List.
From Flocq Require Import Core BinarySingleNaN.
From Verif Require Import Prelude Spec Matrix Filter FloatNum SpecReal SpecRange SpecTurn FloatErr FloatPredict SpecFixedRange SpecFixedGain FixedCert LinPath FloatQ.
Import ListNotations SpecFloat.
Open Scope R_scope.

Section Up.
Variable sh : positive.
Notation D := (2 ^ sh)%positive.
(** the integer a, scaled by 2^sh, bounds the non-negative real r *)
Definition up (a : Z) (r : R) : Prop := 0 <= r /\ r * IZR (Zpos D) <= IZR a.
Definition mulu (a b : Z) : Z := (Z.shiftr (a * b) (Zpos sh) + 1)%Z.
Fixpoint sumz (n : nat) (f : nat -> Z) : Z := match n with O => 0%Z | S n' => (sumz n' f + f n')%Z end.
Lemma D_pos : 0 < IZR (Zpos D). Proof. apply IZR_lt. lia. Qed.
Lemma up_add a b r s : up a r -> up b s -> up (a + b) (r + s).
Proof. intros (H1 & H2) (H3 & H4). split; [lra|]. rewrite plus_IZR. lra. Qed.
Lemma up_mul a b r s : up a r -> up b s -> up (mulu a b) (r * s).
Proof.
  intros (H1 & H2) (H3 & H4). split; [apply Rmult_le_pos; assumption|]. unfold mulu. rewrite plus_IZR, Z.shiftr_div_pow2 by lia.
  assert (EP : (2 ^ Zpos sh)%Z = Zpos D) by (rewrite Pos2Z.inj_pow; reflexivity). rewrite EP. pose proof D_pos as DP.
  pose proof (Z.div_mod (a * b) (Zpos D) ltac:(lia)) as DM. pose proof (Z.mod_pos_bound (a * b) (Zpos D) ltac:(lia)) as M. set (d := (a * b / Zpos D)%Z) in *. set (k := ((a * b) mod Zpos D)%Z) in *.
  assert (EQ : IZR a * IZR b = IZR (Zpos D) * IZR d + IZR k) by (rewrite <- !mult_IZR, <- plus_IZR; f_equal; exact DM).
  assert (KB : IZR k <= IZR (Zpos D)) by (apply IZR_le; lia).
  assert (P : (r * IZR (Zpos D)) * (s * IZR (Zpos D)) <= IZR a * IZR b).
  { apply Rmult_le_compat; try assumption; apply Rmult_le_pos; try assumption; lra. }
  rewrite EQ in P. apply (Rmult_le_reg_r (IZR (Zpos D))); [exact DP|]. set (DD := IZR (Zpos D)) in *. clearbody DD. replace (r * s * DD * DD) with (r * DD * (s * DD)) by ring. eapply Rle_trans; [exact P|]. lra.
Qed.
Lemma up_sum n f g : (forall i, (i < n)%nat -> up (f i) (g i)) -> up (sumz n f) (rsum n g).
Proof. induction n as [|n IH]; intros H; cbn; [split; [lra|rewrite Rmult_0_l; lra]|]. apply up_add; [apply IH; intros; apply H; lia|apply H; lia]. Qed.
Lemma up_weaken a b r : up a r -> (a <= b)%Z -> up b r.
Proof. intros (H1 & H2) L. split; [exact H1|]. apply IZR_le in L. lra. Qed.
Lemma up_one : up (Zpos D) 1.
Proof. split; [lra|]. rewrite Rmult_1_l. apply Rle_refl. Qed.
Lemma up_nat k : up (Z.of_nat k * Zpos D) (INR k).
Proof. split; [apply pos_INR|]. rewrite mult_IZR, INR_IZR_INZ. apply Rle_refl. Qed.
Lemma up_minus_one a r : up a r -> 1 <= r -> up (a - Zpos D) (r - 1).
Proof. intros (H1 & H2) H. split; [lra|]. rewrite minus_IZR. lra. Qed.
Definition upq (z : Z) (q : Q) : bool := Qle_bool (Qabs q) (z # D).
Lemma Q2R_make z P : Q2R (z # P) = IZR z / IZR (Zpos P).
Proof. reflexivity. Qed.
Lemma upq_ok z q : upq z q = true -> up z (Rabs (Q2R q)).
Proof.
  intros E. apply Qle_bool_iff, Qle_Rle in E. rewrite Q2R_abs, Q2R_make in E. split; [apply Rabs_pos|]. pose proof D_pos as DP. apply (Rmult_le_compat_r (IZR (Zpos D))) in E; [|lra].
  eapply Rle_trans; [exact E|]. apply Req_le. field. lra.
Qed.
Lemma upq_pos z q : upq z q = true -> (0 <= q)%Q -> up z (Q2R q).
Proof. intros E H. apply upq_ok in E. apply Qle_Rle in H. rewrite Q2R_0 in H. rewrite Rabs_pos_eq in E by exact H. exact E. Qed.
Lemma up_Q z q r : up z r -> Q2R q = r -> (q <= z # D)%Q.
Proof.
  intros (H1 & H2) <-. apply Rle_Qle. rewrite Q2R_make. pose proof D_pos as DP. apply (Rmult_le_reg_r (IZR (Zpos D))); [exact DP|]. eapply Rle_trans; [exact H2|]. apply Req_le. field. lra.
Qed.
Lemma up_lt z q r : up z r -> qlt_bool (z # D) q = true -> r < Q2R q.
Proof.
  intros (H1 & H2) E. apply qlt_bool_R in E. rewrite Q2R_make in E. eapply Rle_lt_trans; [|exact E]. pose proof D_pos as DP. apply (Rmult_le_reg_r (IZR (Zpos D))); [exact DP|]. eapply Rle_trans; [exact H2|]. apply Req_le. field. lra.
Qed.

Section Formulas.
Variables (prec emax : Z) (n m : nat) (uz ez : Z).
Definition consts_ok : bool := upq uz (pow2 (- prec)) && upq ez (pow2 (2 - emax - prec)).
Hypothesis HC : consts_ok = true.
Lemma u_pos : 0 < uro prec. Proof. apply bpow_gt_0. Qed.
Lemma up_u : up uz (uro prec).
Proof. pose proof HC as H. apply andb_prop in H. destruct H as (H & _). apply upq_ok in H. rewrite Q2R_pow2, Rabs_pos_eq in H by apply bpow_ge_0. exact H. Qed.
Lemma up_e : up ez (eta prec emax).
Proof. pose proof HC as H. apply andb_prop in H. destruct H as (_ & H). apply upq_ok in H. rewrite Q2R_pow2, Rabs_pos_eq in H by apply bpow_ge_0. exact H. Qed.
Fixpoint Gz (k : nat) : Z := match k with O => Zpos D | S k' => mulu (Zpos D + uz) (Gz k') end.
Lemma up_G k : up (Gz k) ((1 + uro prec) ^ k).
Proof. induction k as [|k IH]; cbn [Gz pow]; [apply up_one|]. apply up_mul; [apply up_add; [apply up_one|apply up_u]|exact IH]. Qed.
Lemma G_ge1 k : 1 <= (1 + uro prec) ^ k.
Proof. apply pow_R1_Rle. pose proof u_pos. lra. Qed.
Lemma up_G1 k : up (Gz k - Zpos D) ((1 + uro prec) ^ k - 1).
Proof. apply up_minus_one; [apply up_G|apply G_ge1]. Qed.
Notation nz k := (Z.of_nat k * Zpos D)%Z.
(** the bounds of SpecTurn.v, from upper bounds of the entries *)
Variables (A H K : nat -> nat -> R) (X Zb Yb : nat -> R) (Az Hz Kz : nat -> nat -> Z) (Xz Zz Yz : nat -> Z).
Hypothesis HA : forall i k, (i < n)%nat -> (k < n)%nat -> up (Az i k) (Rabs (A i k)).
Hypothesis HH : forall i k, (i < m)%nat -> (k < n)%nat -> up (Hz i k) (Rabs (H i k)).
Hypothesis HK : forall i k, (i < n)%nat -> (k < m)%nat -> up (Kz i k) (Rabs (K i k)).
Hypothesis HX : forall i, (i < n)%nat -> up (Xz i) (X i).
Definition z_size (i : nat) : Z := sumz n (fun k => mulu (Az i k) (Xz k)).
Definition z_bp (i : nat) : Z := mulu (Gz n) (z_size i + mulu (nz n) ez).
Definition z_pr (i : nat) : Z := (mulu (Gz n - Zpos D) (z_size i) + mulu (mulu (nz n) (Gz n)) ez)%Z.
Lemma up_size i : (i < n)%nat -> up (z_size i) (rsum n (fun k => Rabs (A i k) * X k)).
Proof. intros Hi. apply up_sum. intros k Hk. apply up_mul; auto. Qed.
Lemma up_bp i : (i < n)%nat -> up (z_bp i) (r_big_prediction prec emax n A X i).
Proof. intros Hi. apply up_mul; [apply up_G|]. apply up_add; [apply up_size, Hi|]. apply up_mul; [apply up_nat|apply up_e]. Qed.
Lemma up_pr i : (i < n)%nat -> up (z_pr i) (r_pred_rounding prec emax n A X i).
Proof. intros Hi. apply up_add; apply up_mul; [apply up_G1|apply up_size, Hi|apply up_mul; [apply up_nat|apply up_G]|apply up_e]. Qed.
Section Crude.
Hypothesis HZ : forall j, (j < m)%nat -> up (Zz j) (Zb j).
Notation X' := (r_big_prediction prec emax n A X).
Definition z_hx (j : nat) : Z := sumz n (fun l => mulu (Hz j l) (z_bp l)).
Definition z_bi (j : nat) : Z := mulu (Gz (n + 1)) (Zz j + z_hx j + mulu (nz n) ez).
Definition z_ir (j : nat) : Z := (mulu (Gz (n + 1) - Zpos D) (Zz j + z_hx j) + mulu (mulu (Gz (n + 1)) ez) (nz n))%Z.
Definition z_ki (i : nat) : Z := (z_bp i + sumz m (fun j => mulu (Kz i j) (z_bi j)))%Z.
Definition z_bc (i : nat) : Z := mulu (Gz (m + 1)) (z_ki i + mulu (nz m) ez).
Definition z_tr (i : nat) : Z :=
  (mulu (Gz (m + 1) - Zpos D) (z_ki i) + mulu (mulu (Gz (m + 1)) ez) (nz m) + sumz m (fun j => mulu (Kz i j) (z_ir j)) + z_pr i + sumz m (fun j => mulu (Kz i j) (sumz n (fun l => mulu (Hz j l) (z_pr l)))))%Z.
Lemma up_hx j : (j < m)%nat -> up (z_hx j) (rsum n (fun l => Rabs (H j l) * X' l)).
Proof. intros Hj. apply up_sum. intros l Hl. apply up_mul; [auto|apply up_bp, Hl]. Qed.
Lemma up_bi j : (j < m)%nat -> up (z_bi j) (r_big_innovation prec emax n H X' Zb j).
Proof. intros Hj. apply up_mul; [apply up_G|]. apply up_add; [apply up_add; [auto|apply up_hx, Hj]|apply up_mul; [apply up_nat|apply up_e]]. Qed.
Lemma up_ir j : (j < m)%nat -> up (z_ir j) (r_inn_rounding prec emax n H X' Zb j).
Proof. intros Hj. apply up_add; [apply up_mul; [apply up_G1|apply up_add; [auto|apply up_hx, Hj]]|apply up_mul; [apply up_mul; [apply up_G|apply up_e]|apply up_nat]]. Qed.
Lemma up_ki i : (i < n)%nat -> up (z_ki i) (X' i + rsum m (fun j => Rabs (K i j) * r_big_innovation prec emax n H X' Zb j)).
Proof. intros Hi. apply up_add; [apply up_bp, Hi|]. apply up_sum. intros j Hj. apply up_mul; [auto|apply up_bi, Hj]. Qed.
Lemma up_bc i : (i < n)%nat -> up (z_bc i) (r_big_correction prec emax n m H K X' Zb i).
Proof. intros Hi. apply up_mul; [apply up_G|]. apply up_add; [apply up_ki, Hi|apply up_mul; [apply up_nat|apply up_e]]. Qed.
Lemma up_tr i : (i < n)%nat -> up (z_tr i) (r_turn_rounding prec emax n m A H K X Zb i).
Proof.
  intros Hi. unfold r_turn_rounding, r_corr_rounding. apply up_add; [apply up_add; [apply up_add; [apply up_add|]|]|].
  - apply up_mul; [apply up_G1|apply up_ki, Hi].
  - apply up_mul; [apply up_mul; [apply up_G|apply up_e]|apply up_nat].
  - apply up_sum. intros j Hj. apply up_mul; [auto|apply up_ir, Hj].
  - apply up_pr, Hi.
  - apply up_sum. intros j Hj. apply up_mul; [auto|]. apply up_sum. intros l Hl. apply up_mul; [auto|apply up_pr, Hl].
Qed.
Definition z_room : bool := all_lt n (fun i => qlt_bool (z_bp i # D) (pow2 emax)) && all_lt m (fun j => qlt_bool (z_bi j # D) (pow2 emax)) && all_lt n (fun i => qlt_bool (z_bc i # D) (pow2 emax)).
Lemma z_room_ok : z_room = true -> r_turn_room prec emax n m A H K X Zb.
Proof.
  intros E. apply andb_prop in E. destruct E as (E & E3). apply andb_prop in E. destruct E as (E1 & E2). unfold r_turn_room, r_sel_room, too_big; rewrite <- !Q2R_pow2.
  split; [|split]; intros i Hi; [apply (up_lt _ _ _ (up_bp i Hi)), (all_lt_spec _ _ E1 i Hi)|apply (up_lt _ _ _ (up_bi i Hi)), (all_lt_spec _ _ E2 i Hi)|apply (up_lt _ _ _ (up_bc i Hi)), (all_lt_spec _ _ E3 i Hi)].
Qed.
End Crude.
Section Sharp.
Variable s : nat -> nat.
Variable Dz : nat -> nat -> Z.
Hypothesis Hs : forall j, (j < m)%nat -> (s j < n)%nat.
Hypothesis HY : forall j, (j < m)%nat -> up (Yz j) (Yb j).
Hypothesis HD : forall i l, (i < n)%nat -> (l < n)%nat -> up (Dz i l) (Rabs ((if (l =? i)%nat then 1 else 0) - rsum m (fun j => K i j * H j l))).
Definition z_near (j : nat) : Z := (Yz j + z_pr (s j))%Z.
Definition z_kn (i : nat) : Z := (z_bp i + sumz m (fun j => mulu (Kz i j) (mulu (Zpos D + uz) (z_near j))))%Z.
Definition z_bs (i : nat) : Z := mulu (Gz (m + 1)) (z_kn i + mulu (nz m) ez).
Definition z_sr (i : nat) : Z :=
  (mulu (Gz (m + 1) - Zpos D) (z_kn i) + mulu (mulu (Gz (m + 1)) ez) (nz m) + sumz m (fun j => mulu (Kz i j) (mulu uz (z_near j))) + sumz n (fun l => mulu (Dz i l) (z_pr l)))%Z.
Lemma up_near j : (j < m)%nat -> up (z_near j) (r_near prec emax n A X Yb s j).
Proof. intros Hj. apply up_add; [auto|apply up_pr; auto]. Qed.
Lemma up_kn i : (i < n)%nat -> up (z_kn i) (r_big_prediction prec emax n A X i + rsum m (fun j => Rabs (K i j) * ((1 + uro prec) * r_near prec emax n A X Yb s j))).
Proof. intros Hi. apply up_add; [apply up_bp, Hi|]. apply up_sum. intros j Hj. apply up_mul; [auto|]. apply up_mul; [apply up_add; [apply up_one|apply up_u]|apply up_near, Hj]. Qed.
Lemma up_sr i : (i < n)%nat -> up (z_sr i) (r_sel_rounding prec emax n m A H K X Yb s i).
Proof.
  intros Hi. unfold r_sel_rounding. apply up_add; [apply up_add; [apply up_add|]|].
  - apply up_mul; [apply up_G1|apply up_kn, Hi].
  - apply up_mul; [apply up_mul; [apply up_G|apply up_e]|apply up_nat].
  - apply up_sum. intros j Hj. apply up_mul; [auto|]. apply up_mul; [apply up_u|apply up_near, Hj].
  - apply up_sum. intros l Hl. apply up_mul; [auto|apply up_pr, Hl].
Qed.
Definition z_sel_room : bool :=
  all_lt n (fun i => qlt_bool (z_bp i # D) (pow2 emax)) && all_lt m (fun j => qlt_bool (mulu (Zpos D + uz) (z_near j) # D) (pow2 emax)) && all_lt n (fun i => qlt_bool (z_bs i # D) (pow2 emax)).
Lemma z_sel_room_ok : z_sel_room = true -> r_sel_room prec emax n m A K X Yb s.
Proof.
  intros E. apply andb_prop in E. destruct E as (E & E3). apply andb_prop in E. destruct E as (E1 & E2). unfold r_turn_room, r_sel_room, too_big; rewrite <- !Q2R_pow2. split; [|split]; intros i Hi.
  - apply (up_lt _ _ _ (up_bp i Hi)), (all_lt_spec _ _ E1 i Hi).
  - assert (U : up (mulu (Zpos D + uz) (z_near i)) ((1 + uro prec) * r_near prec emax n A X Yb s i)) by (apply up_mul; [apply up_add; [apply up_one|apply up_u]|apply up_near, Hi]). apply (up_lt _ _ _ U), (all_lt_spec _ _ E2 i Hi).
  - assert (U : up (z_bs i) (r_big_sel prec emax n m A K X Yb s i)) by (apply up_mul; [apply up_G|]; apply up_add; [apply up_kn, Hi|apply up_mul; [apply up_nat|apply up_e]]). apply (up_lt _ _ _ U), (all_lt_spec _ _ E3 i Hi).
Qed.
End Sharp.
End Formulas.
End Up.
