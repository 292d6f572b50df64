(** * A floating-point filter beside the trajectory it tracks: certificates that bound its error *)
From Coq Require Import ZArith QArith Qabs Qreals Reals Lra Lqa Psatz Lia List.
From Flocq Require Import Core BinarySingleNaN.
From Verif Require Import Prelude Spec Matrix Filter SpecFilter SpecGen FloatNum SpecReal SpecRange SpecTurn FloatErr FloatPredict FloatTurn SpecFixedRange SpecFixedGain FixedRange FixedStable FixedGain FixedCert LinPath ZPath FloatQ FloatUp TurnRun.
Import ListNotations SpecFloat.

Section Track.
Variables (prec emax : Z) (n m : nat) (s : nat -> nat) (Al Hm : list spec_float) (Kl : nat -> list spec_float) (T : nat).
(** the turn from state x to state x' with reading z and gain K *)
Definition turn_fact (x x' z K : list spec_float) : Prop := (forall X Yb, fin_vector n x X -> fin_matrix m 1 z ->
  (forall j, (j < m)%nat -> Rabs (rcell 1 z j 0 - r_predicted n (rcell n Al) (fun k => rcell 1 x k 0) (s j)) <= Yb j) -> r_sel_room prec emax n m (rcell n Al) (rcell m K) X Yb s ->
  fin_matrix n 1 x' /\ forall i, (i < n)%nat -> Rabs (rcell 1 x' i 0 - r_turn_state n m (rcell n Al) (rcell n Hm) (rcell m K) (fun k => rcell 1 x k 0) (fun j => rcell 1 z j 0) i) <= r_sel_rounding prec emax n m (rcell n Al) (rcell n Hm) (rcell m K) X Yb s i)%R.
Variables (xs zs : nat -> list spec_float).
Hypothesis HT : forall t, (t < T)%nat -> turn_fact (xs t) (xs (S t)) (zs t) (Kl t).
Hypothesis Hz : forall t, (t < T)%nat -> fin_matrix m 1 (zs t).
Hypothesis Hx : fin_matrix n 1 (xs 0%nat).
Open Scope Q_scope.
Variables (sh q E P : positive) (uz ez : Z) (tr : nat -> nat -> Q) (tab : nat -> ztab) (Wb B x0 : nat -> Q).
(** upper bounds, scaled by 2^sh: of A, of the innovations; for each turn of the gain, of I - K H, of the state *)
Variables (Az Yz : list Z) (bd : nat -> list Z * list Z * list Z).
Definition zat (l : list Z) (i : nat) : Z := nth i l 0%Z.
Definition zmat (N : nat) (l : list Z) (i k : nat) : Z := nth (i * N + k) l 0%Z.
Definition Kz (t : nat) : nat -> nat -> Z := zmat m (fst (fst (bd t))).
Definition Dz (t : nat) : nat -> nat -> Z := zmat n (snd (fst (bd t))).
Definition Xz (t : nat) : nat -> Z := zat (snd (bd t)).
Notation A := (qcl n Al). Notation H := (qcl n Hm).
Definition dx (t i : nat) : Q := qcl 1 (xs t) i 0 - tr t i.
Definition dw (t j : nat) : Q := qcl 1 (zs t) j 0 - qsum n (fun l => H j l * tr (S t) l).
Definition Xt (t i : nat) : Q := Qabs (tr t i) + B i.
Definition Yt (j : nat) : Q := Wb j + qsum n (fun k => Qabs (A (s j) k) * B k).
Definition sel_ok : bool := all_lt m (fun j => (s j <? n)%nat && all_lt n (fun l => Qeq_bool (H j l) (if (l =? s j)%nat then 1 else 0))).
Definition lmiss (K : nat -> nat -> Q) (i l : nat) : Q := (if (l =? i)%nat then 1 else 0) - qsum m (fun j => K i j * H j l).
Definition bounds_ok : bool := consts_ok sh prec emax uz ez && all_lt n (fun i => all_lt n (fun k => upq sh (zmat n Az i k) (A i k))) && all_lt m (fun j => upq sh (zat Yz j) (Yt j)) && all_lt n (fun i => Qle_bool 0 (B i)) && all_lt m (fun j => Qle_bool 0 (Wb j)).
Definition turn_bounds_ok (t : nat) : bool :=
  all_lt n (fun i => all_lt m (fun j => upq sh (Kz t i j) (qcl m (Kl t) i j))) && all_lt n (fun i => all_lt n (fun l => upq sh (Dz t i l) (lmiss (qcl m (Kl t)) i l))) && all_lt n (fun i => upq sh (Xz t i) (Xt t i)).
Definition tables_ok (t : nat) : bool :=
  z_sel_room sh emax n m uz ez (zmat n Az) (Kz t) (Xz t) (zat Yz) s &&
  all_lt n (fun i => Qle_bool ((z_sr sh n m uz ez (zmat n Az) (Kz t) (Xz t) (zat Yz) s (Dz t) i # (2 ^ sh)) +
    qsum n (fun k => Qabs (zF q (tab t) i k - closed n m A H (qcl m (Kl t)) i k) * B k) + qsum m (fun j => Qabs (zK q (tab t) i j - qcl m (Kl t) i j) * Wb j)) (ze E (tab t) i)).
Definition track_ok (t : nat) : bool := turn_bounds_ok t && tables_ok t && all_lt n (fun i => Qeq_bool (tr (S t) i) (qsum n (fun k => A i k * tr t k))).
Hypothesis HS : sel_ok = true.
Hypothesis HC0 : bounds_ok = true.
Hypothesis HC : all_lt T track_ok = true.
Hypothesis HW : forall t j, (t < T)%nat -> (j < m)%nat -> Qabs (dw t j) <= Wb j.

Lemma sel_q j : (j < m)%nat -> (s j < n)%nat /\ forall l, (l < n)%nat -> H j l == if (l =? s j)%nat then 1 else 0.
Proof.
  intros Hj. pose proof (all_lt_spec _ _ HS j Hj) as EE. cbv beta in EE. apply andb_prop in EE. destruct EE as (E1 & E2). split; [apply Nat.ltb_lt, E1|]. intros l Hl. apply Qeq_bool_iff. exact (all_lt_spec _ _ E2 l Hl).
Qed.
Lemma sel_r : selects n m (rcell n Hm) s.
Proof.
  intros j Hj. destruct (sel_q j Hj) as (E1 & E2). split; [exact E1|]. intros l Hl. rewrite <- Q2R_qcl. specialize (E2 l Hl). apply Qeq_eqR in E2. rewrite E2. destruct (l =? s j)%nat; [apply Q2R_1|apply Q2R_0].
Qed.
Lemma sel_dot j v : (j < m)%nat -> qsum n (fun l => H j l * v l) == v (s j).
Proof.
  intros Hj. destruct (sel_q j Hj) as (E1 & E2). rewrite <- (unit_dot (s j) n v E1). apply qsum_eq. intros l Hl. rewrite (E2 l Hl). reflexivity.
Qed.
Lemma error_turn K x z y y' i : (i < n)%nat -> (forall i, (i < n)%nat -> y' i == qsum n (fun k => A i k * y k)) ->
  q_turn_state n m A H K x z i - y' i == qsum n (fun k => closed n m A H K i k * (x k - y k)) + qsum m (fun j => K i j * (z j - qsum n (fun l => H j l * y' l))).
Proof.
  intros Hi HY. rewrite turn_affine.
  assert (EE : y' i == qsum n (fun k => closed n m A H K i k * y k) + qsum m (fun j => K i j * qsum n (fun l => H j l * y' l))).
  { assert (E1 : qsum n (fun k => closed n m A H K i k * y k) == q_turn_state n m A H K y (fun _ => 0) i).
    { rewrite turn_affine. assert (Z0 : qsum m (fun j => K i j * 0) == 0) by (rewrite <- (qsum_zero m); apply qsum_eq; intros; ring). rewrite Z0, Qplus_0_r. reflexivity. }
    rewrite E1. unfold q_turn_state, q_predicted. rewrite <- (HY i Hi).
    assert (E2 : qsum m (fun j => K i j * (0 - qsum n (fun l => H j l * qsum n (fun k => A l k * y k)))) == - qsum m (fun j => K i j * qsum n (fun l => H j l * y' l))).
    { transitivity (qsum m (fun j => (-1) * (K i j * qsum n (fun l => H j l * y' l)))); [|rewrite qsum_scal_l; ring]. apply qsum_eq. intros j Hj.
      assert (E3 : qsum n (fun l => H j l * qsum n (fun k => A l k * y k)) == qsum n (fun l => H j l * y' l)) by (apply qsum_eq; intros l Hl; rewrite (HY l Hl); reflexivity).
      rewrite E3. ring. }
    rewrite E2. ring. }
  rewrite EE at 1.
  assert (E4 : qsum n (fun k => closed n m A H K i k * (x k - y k)) == qsum n (fun k => closed n m A H K i k * x k) - qsum n (fun k => closed n m A H K i k * y k)) by (rewrite <- qsum_sub; apply qsum_eq; intros; ring).
  assert (E5 : qsum m (fun j => K i j * (z j - qsum n (fun l => H j l * y' l))) == qsum m (fun j => K i j * z j) - qsum m (fun j => K i j * qsum n (fun l => H j l * y' l)))
    by (rewrite <- qsum_sub; apply qsum_eq; intros; ring).
  rewrite E4, E5. ring.
Qed.

Lemma bounds_split : consts_ok sh prec emax uz ez = true /\ (forall i k, (i < n)%nat -> (k < n)%nat -> up sh (zmat n Az i k) (Rabs (rcell n Al i k))) /\ (forall j, (j < m)%nat -> upq sh (zat Yz j) (Yt j) = true) /\
  (forall i, (i < n)%nat -> 0 <= B i) /\ (forall j, (j < m)%nat -> 0 <= Wb j).
Proof.
  pose proof HC0 as C. unfold bounds_ok in C. apply andb_prop in C. destruct C as (C & C5). apply andb_prop in C. destruct C as (C & C4). apply andb_prop in C. destruct C as (C & C3). apply andb_prop in C. destruct C as (C1 & C2).
  split; [exact C1|]. split; [|split; [|split]].
  - intros i k Hi Hk. rewrite <- Q2R_qcl. apply upq_ok. exact (all_lt_spec _ _ (all_lt_spec _ _ C2 i Hi) k Hk).
  - intros j Hj. exact (all_lt_spec _ _ C3 j Hj).
  - intros i Hi. apply Qle_bool_iff. exact (all_lt_spec _ _ C4 i Hi).
  - intros j Hj. apply Qle_bool_iff. exact (all_lt_spec _ _ C5 j Hj).
Qed.
Lemma lmiss_r K K' i l : (i < n)%nat -> (l < n)%nat -> (forall j, (j < m)%nat -> Q2R (K i j) = K' i j) -> Q2R (lmiss K i l) = ((if (l =? i)%nat then 1 else 0) - rsum m (fun j => K' i j * rcell n Hm j l))%R.
Proof.
  intros Hi Hl HK. unfold lmiss. rewrite Q2R_minus, Q2R_qsum. f_equal; [destruct (l =? i)%nat; [apply Q2R_1|apply Q2R_0]|]. apply rsum_ext. intros j Hj. rewrite Q2R_mult, (HK j Hj), Q2R_qcl. reflexivity.
Qed.

Lemma track_step t : (t < T)%nat -> (forall i, (i < n)%nat -> Qabs (dx t i) <= B i) -> fin_matrix n 1 (xs t) -> zstep n m q E tab dx dw t /\ fin_matrix n 1 (xs (S t)).
Proof.
  intros Ht HB Fx. pose proof (all_lt_spec _ _ HC t Ht) as C. unfold track_ok in C. apply andb_prop in C. destruct C as (C & C5). apply andb_prop in C. destruct C as (CB & CT).
  unfold turn_bounds_ok in CB. apply andb_prop in CB. destruct CB as (CB & CB3). apply andb_prop in CB. destruct CB as (CB1 & CB2). unfold tables_ok in CT. apply andb_prop in CT. destruct CT as (CT1 & CT2).
  destruct bounds_split as (B1 & B2 & B3 & B4 & B5).
  assert (TR : forall i, (i < n)%nat -> tr (S t) i == qsum n (fun k => A i k * tr t k)) by (intros i Hi; apply Qeq_bool_iff; exact (all_lt_spec _ _ C5 i Hi)).
  assert (FX : fin_vector n (xs t) (fun i => Q2R (Xt t i))).
  { split; [exact Fx|]. intros i Hi. rewrite <- Q2R_qcl, <- Q2R_abs. apply Qle_Rle. specialize (HB i Hi). unfold dx in HB. unfold Xt.
    assert (E0 : qcl 1 (xs t) i 0 == tr t i + (qcl 1 (xs t) i 0 - tr t i)) by ring. rewrite E0 at 1. eapply Qle_trans; [apply Qabs_triangle|]. lra. }
  assert (YB : forall j, (j < m)%nat -> (Rabs (rcell 1 (zs t) j 0 - r_predicted n (rcell n Al) (fun k => rcell 1 (xs t) k 0) (s j)) <= Q2R (Yt j))%R).
  { intros j Hj. assert (E0 : r_predicted n (rcell n Al) (fun k => rcell 1 (xs t) k 0) (s j) = Q2R (qsum n (fun k => A (s j) k * qcl 1 (xs t) k 0))).
    { unfold r_predicted. rewrite Q2R_qsum. apply rsum_ext. intros k Hk. rewrite Q2R_mult, !Q2R_qcl. reflexivity. }
    rewrite E0, <- Q2R_qcl, <- Q2R_minus, <- Q2R_abs. apply Qle_Rle. unfold Yt. pose proof (HW t j Ht Hj) as W. unfold dw in W. rewrite (sel_dot j (fun l => tr (S t) l) Hj) in W. rewrite (TR (s j) (proj1 (sel_q j Hj))) in W.
    assert (E2 : qcl 1 (zs t) j 0 - qsum n (fun k => A (s j) k * qcl 1 (xs t) k 0) == (qcl 1 (zs t) j 0 - qsum n (fun k => A (s j) k * tr t k)) - qsum n (fun k => A (s j) k * dx t k)).
    { assert (E3 : qsum n (fun k => A (s j) k * dx t k) == qsum n (fun k => A (s j) k * qcl 1 (xs t) k 0) - qsum n (fun k => A (s j) k * tr t k)) by (rewrite <- qsum_sub; apply qsum_eq; intros; unfold dx; ring). rewrite E3. ring. }
    rewrite E2. pose proof (dotB n (fun k => A (s j) k) (dx t) B HB) as D. cbv beta in D. eapply Qle_trans; [apply (Qabs_triangle _ (- _))|]. rewrite Qabs_opp. lra. }
  assert (UK : forall i j, (i < n)%nat -> (j < m)%nat -> up sh (Kz t i j) (Rabs (rcell m (Kl t) i j))).
  { intros i j Hi Hj. rewrite <- Q2R_qcl. apply upq_ok. exact (all_lt_spec _ _ (all_lt_spec _ _ CB1 i Hi) j Hj). }
  assert (UX : forall i, (i < n)%nat -> up sh (Xz t i) (Q2R (Xt t i))).
  { intros i Hi. apply upq_pos; [exact (all_lt_spec _ _ CB3 i Hi)|]. unfold Xt. pose proof (Qabs_nonneg (tr t i)). pose proof (B4 i Hi). lra. }
  assert (YP : forall j, (j < m)%nat -> 0 <= Yt j).
  { intros j Hj. unfold Yt. pose proof (B5 j Hj) as W0. assert (S0 : 0 <= qsum n (fun k => Qabs (A (s j) k) * B k)) by (apply qsum_pos; intros k Hk; apply Qmult_le_0_compat; [apply Qabs_nonneg|apply B4, Hk]). lra. }
  assert (UY : forall j, (j < m)%nat -> up sh (zat Yz j) (Q2R (Yt j))) by (intros j Hj; apply upq_pos; [apply B3, Hj|apply YP, Hj]).
  assert (UD : forall i l, (i < n)%nat -> (l < n)%nat -> up sh (Dz t i l) (Rabs ((if (l =? i)%nat then 1 else 0) - rsum m (fun j => rcell m (Kl t) i j * rcell n Hm j l)))%R).
  { intros i l Hi Hl. rewrite <- (lmiss_r (qcl m (Kl t)) (rcell m (Kl t)) i l Hi Hl (fun j _ => Q2R_qcl m (Kl t) i j)). apply upq_ok. exact (all_lt_spec _ _ (all_lt_spec _ _ CB2 i Hi) l Hl). }
  assert (SL : forall j, (j < m)%nat -> (s j < n)%nat) by (intros j Hj; apply (sel_q j Hj)).
  assert (RM : r_sel_room prec emax n m (rcell n Al) (rcell m (Kl t)) (fun i => Q2R (Xt t i)) (fun j => Q2R (Yt j)) s) by (eapply z_sel_room_ok; eassumption).
  destruct (HT t Ht (fun i => Q2R (Xt t i)) (fun j => Q2R (Yt j)) FX (Hz t Ht) YB RM) as (FN & ST). split; [|exact FN].
  intros i Hi. specialize (ST i Hi). pose proof (all_lt_spec _ _ CT2 i Hi) as C2i. cbv beta in C2i. apply Qle_bool_iff in C2i.
  assert (US : up sh (z_sr sh n m uz ez (zmat n Az) (Kz t) (Xz t) (zat Yz) s (Dz t) i) (r_sel_rounding prec emax n m (rcell n Al) (rcell n Hm) (rcell m (Kl t)) (fun i => Q2R (Xt t i)) (fun j => Q2R (Yt j)) s i)) by (eapply up_sr; eassumption).
  set (zr := z_sr sh n m uz ez (zmat n Az) (Kz t) (Xz t) (zat Yz) s (Dz t) i) in *.
  assert (Q1 : Qabs (qcl 1 (xs (S t)) i 0 - q_turn_state n m A H (qcl m (Kl t)) (fun k => qcl 1 (xs t) k 0) (fun j => qcl 1 (zs t) j 0) i) <= zr # 2 ^ sh).
  { eapply up_Q; [|reflexivity]. destruct US as (_ & US). split; [rewrite Q2R_abs; apply Rabs_pos|]. eapply Rle_trans; [|exact US]. apply Rmult_le_compat_r; [apply IZR_le; lia|]. rewrite Q2R_abs, Q2R_minus, Q2R_qcl, ts_q, !rcell_f.
    rewrite (turn_state_ext n m (rcell n Al) (rcell n Hm) (rcell m (Kl t)) (rcell m (Kl t)) (fun _ _ _ _ => eq_refl) _ (fun k => rcell 1 (xs t) k 0) _ (fun j => rcell 1 (zs t) j 0) i Hi (fun k _ => Q2R_qcl 1 (xs t) k 0) (fun j _ => Q2R_qcl 1 (zs t) j 0)). exact ST. }
  pose proof (error_turn (qcl m (Kl t)) (fun k => qcl 1 (xs t) k 0) (fun j => qcl 1 (zs t) j 0) (tr t) (tr (S t)) i Hi TR) as ET. cbv beta in ET.
  assert (EF : Qabs (qsum n (fun k => (zF q (tab t) i k - closed n m A H (qcl m (Kl t)) i k) * dx t k)) <= qsum n (fun k => Qabs (zF q (tab t) i k - closed n m A H (qcl m (Kl t)) i k) * B k)) by (apply dotB; exact HB).
  assert (EK : Qabs (qsum m (fun j => (zK q (tab t) i j - qcl m (Kl t) i j) * dw t j)) <= qsum m (fun j => Qabs (zK q (tab t) i j - qcl m (Kl t) i j) * Wb j)) by (apply dotB; intros j Hj; apply HW; assumption).
  assert (E1 : qsum n (fun k => zF q (tab t) i k * dx t k) == qsum n (fun k => (zF q (tab t) i k - closed n m A H (qcl m (Kl t)) i k) * dx t k) + qsum n (fun k => closed n m A H (qcl m (Kl t)) i k * (qcl 1 (xs t) k 0 - tr t k))) by (rewrite <- qsum_add; apply qsum_eq; intros; unfold dx; ring).
  assert (E2 : qsum m (fun j => zK q (tab t) i j * dw t j) == qsum m (fun j => (zK q (tab t) i j - qcl m (Kl t) i j) * dw t j) + qsum m (fun j => qcl m (Kl t) i j * (qcl 1 (zs t) j 0 - qsum n (fun l => H j l * tr (S t) l)))) by (rewrite <- qsum_add; apply qsum_eq; intros; unfold dw; ring).
  change (zstep n m q E tab dx dw t) in |- * || idtac. cbv beta.
  rewrite E1, E2. unfold dx at 1.
  set (y := q_turn_state n m A H (qcl m (Kl t)) (fun k => qcl 1 (xs t) k 0) (fun j => qcl 1 (zs t) j 0) i) in *.
  set (a1 := qsum n (fun k => (zF q (tab t) i k - closed n m A H (qcl m (Kl t)) i k) * dx t k)) in *. set (a2 := qsum n (fun k => closed n m A H (qcl m (Kl t)) i k * (qcl 1 (xs t) k 0 - tr t k))) in *.
  set (a3 := qsum m (fun j => (zK q (tab t) i j - qcl m (Kl t) i j) * dw t j)) in *. set (a4 := qsum m (fun j => qcl m (Kl t) i j * (qcl 1 (zs t) j 0 - qsum n (fun l => H j l * tr (S t) l)))) in *.
  set (b1 := qsum n (fun k => Qabs (zF q (tab t) i k - closed n m A H (qcl m (Kl t)) i k) * B k)) in *. set (b2 := qsum m (fun j => Qabs (zK q (tab t) i j - qcl m (Kl t) i j) * Wb j)) in *.
  apply Qabs_le_iff in Q1. apply Qabs_le_iff in EF. apply Qabs_le_iff in EK. apply Qabs_le_iff.
  clear - ET Q1 EF EK C2i. clearbody y a1 a2 a3 a4 b1 b2 zr. split; lra.
Qed.

Hypothesis Hx0 : forall i, (i < n)%nat -> dx 0 i == x0 i.
Hypothesis Hsh : forall t, shape_ok n m (tab t) = true.
Definition box_ok_ : bool := all_lt (S T) (fun t => all_lt n (early_ok n m q E P tab B B Wb x0 T t)).
Hypothesis HB : box_ok_ = true.
(** the states exist as numbers and the errors stay within B *)
Theorem track_prefix : forall t, (t <= T)%nat -> (forall i, (i < n)%nat -> Qabs (dx t i) <= B i) /\ fin_matrix n 1 (xs t) /\ (forall u, (u < t)%nat -> zstep n m q E tab dx dw u).
Proof.
  induction t as [|t IH]; intros Ht.
  - assert (ZS : forall i, (i < n)%nat -> Qabs (dx 0 i) <= lim B B T 0 i).
    { intros i Hi. apply (zstays n m q E P tab B B Wb x0 T 1 dx dw 0 Hx0 Hsh); try lia; auto.
      - intros. apply Qle_refl.
      - intros t k H1 H2 Hk. assert (t = 0%nat) by lia. subst t. exact (all_lt_spec _ _ (all_lt_spec _ _ HB 0%nat ltac:(lia)) k Hk). }
    split; [|split; [exact Hx|intros; lia]]. intros i Hi. specialize (ZS i Hi). unfold lim in ZS. destruct (0 <? T)%nat; exact ZS.
  - destruct (IH ltac:(lia)) as (I1 & I2 & I3). destruct (track_step t ltac:(lia) I1 I2) as (S1 & S2).
    assert (I3' : forall u, (u < S t)%nat -> zstep n m q E tab dx dw u) by (intros u Hu; destruct (Nat.eq_dec u t) as [->|]; [exact S1|apply I3; lia]).
    split; [|split; [exact S2|exact I3']]. intros i Hi.
    assert (ZS : Qabs (dx (S t) i) <= lim B B T (S t) i).
    { apply (zstays n m q E P tab B B Wb x0 T 1 dx dw (S t) Hx0 Hsh); try lia; auto.
      - intros u j Hu Hj. apply HW; [lia|exact Hj].
      - intros. apply Qle_refl.
      - intros u k H1 H2 Hk. exact (all_lt_spec _ _ (all_lt_spec _ _ HB u ltac:(lia)) k Hk). }
    unfold lim in ZS. destruct (S t <? T)%nat; exact ZS.
Qed.
(** the error after the last turn *)
Theorem track_end i : (i < n)%nat -> let c := zchain n m q P (back tab T T) i in fin_matrix n 1 (xs T) /\
  Qabs (inject_Z (Zpos P) * dx T i - qsum n (fun k => iz (fst (fst c)) k * x0 k)) <= zrest n m q E B Wb (back tab T T) c.
Proof.
  intros Hi. cbv zeta. destruct (track_prefix T (le_n T)) as (T1 & T2 & T3). split; [exact T2|].
  pose proof (zchain_sound n m q E P tab B Wb dx dw T T i (le_n T) Hi) as Z. rewrite Nat.sub_diag in Z.
  assert (E0 : qsum n (fun k => iz (fst (fst (zchain n m q P (back tab T T) i))) k * dx 0 k) == qsum n (fun k => iz (fst (fst (zchain n m q P (back tab T T) i))) k * x0 k)) by (apply qsum_eq; intros k Hk; rewrite (Hx0 k Hk); reflexivity).
  rewrite <- E0. apply Z.
  - eapply sh_back; exact Hsh.
  - intros u Hu. apply T3. lia.
  - intros u l Hu Hl. apply (track_prefix u ltac:(lia)), Hl.
  - intros u j Hu Hj. apply HW; [lia|exact Hj].
Qed.
End Track.
