(** * Floats as rationals, so that bounds on concrete filters can be computed *)
From Coq Require Import ZArith QArith Qabs Qreals Reals Lra Psatz Lia List FunctionalExtensionality.
From Flocq Require Import Core BinarySingleNaN.
From Verif Require Import Prelude Spec Matrix Filter FloatNum SpecReal SpecRange SpecTurn SpecFixedRange SpecFixedGain FixedCert LinPath.
Import ListNotations SpecFloat.

Definition pow2 (e : Z) : Q := if (0 <=? e)%Z then inject_Z (2 ^ e) else (1 # Z.to_pos (2 ^ (- e))).
Definition fq (x : spec_float) : Q := match x with S754_finite s m e => (inject_Z (if s then Zneg m else Zpos m) * pow2 e)%Q | _ => 0%Q end.
Definition qcl (C : nat) (l : list spec_float) (i j : nat) : Q := match cell C l i j with Some x => fq x | None => 0%Q end.

Lemma Q2R_inject z : Q2R (inject_Z z) = IZR z.
Proof. unfold Q2R, inject_Z. cbn. field. Qed.
Lemma Q2R_pow2 e : Q2R (pow2 e) = bpow radix2 e.
Proof.
  unfold pow2. destruct (Z.leb_spec 0 e).
  - rewrite Q2R_inject. rewrite <- (IZR_Zpower radix2) by assumption. reflexivity.
  - unfold Q2R. cbn [Qnum Qden]. rewrite Z2Pos.id by (apply Z.pow_pos_nonneg; lia). rewrite Rmult_1_l.
    replace e with (- (- e))%Z at 2 by ring. rewrite bpow_opp. f_equal. apply (IZR_Zpower radix2). lia.
Qed.
Lemma Q2R_fq x : Q2R (fq x) = val x.
Proof.
  unfold val. destruct x as [s|s| |s m e]; cbn [fq SF2R]; try (unfold Q2R; cbn; lra).
  rewrite Q2R_mult, Q2R_inject, Q2R_pow2. unfold F2R. cbn [Fnum Fexp]. destruct s; reflexivity.
Qed.
Lemma Q2R_qcl C l i j : Q2R (qcl C l i j) = rcell C l i j.
Proof. unfold qcl, rcell. destruct (cell C l i j); [apply Q2R_fq|]. unfold Q2R; cbn; lra. Qed.
Lemma Q2R_qsum K f : Q2R (qsum K f) = rsum K (fun k => Q2R (f k)).
Proof. induction K as [|K IH]; cbn; [unfold Q2R; cbn; lra|]. rewrite Q2R_plus, IH. reflexivity. Qed.
Lemma Q2R_abs q : Q2R (Qabs q) = Rabs (Q2R q).
Proof.
  apply Qabs_case; intros H; apply Qle_Rle in H; replace (Q2R 0) with 0%R in H by (unfold Q2R; cbn; lra).
  - rewrite Rabs_pos_eq by assumption. reflexivity.
  - rewrite Rabs_left1 by assumption. apply Q2R_opp.
Qed.
Lemma Q2R_1 : Q2R 1 = 1%R. Proof. unfold Q2R; cbn; lra. Qed.
Lemma Q2R_0 : Q2R 0 = 0%R. Proof. unfold Q2R; cbn; lra. Qed.
Fixpoint qpow (q : Q) (k : nat) : Q := match k with O => 1 | S k' => q * qpow q k' end.
Lemma Q2R_qpow q k : Q2R (qpow q k) = (Q2R q ^ k)%R.
Proof. induction k as [|k IH]; cbn [qpow pow]; [apply Q2R_1|]. rewrite Q2R_mult, IH. reflexivity. Qed.
Lemma Q2R_qn k : Q2R (qn k) = INR k.
Proof. unfold qn. rewrite Q2R_inject, INR_IZR_INZ. reflexivity. Qed.

Lemma rsum_cong K f g : (forall k, f k = g k) -> rsum K f = rsum K g.
Proof. intros H. induction K as [|K IH]; cbn; [reflexivity|]. rewrite IH, H. reflexivity. Qed.

(** the bounds of SpecTurn.v in the rationals *)
Section Bounds.
Variables (prec emax : Z) (n m : nat).
Open Scope Q_scope.
Definition uq : Q := pow2 (- prec).
Definition eq_ : Q := pow2 (2 - emax - prec).
Definition gq (k : nat) : Q := qpow (1 + uq) k.
Definition fq_big_prediction (A : nat -> nat -> Q) (X : nat -> Q) (i : nat) : Q := gq n * (qsum n (fun k => Qabs (A i k) * X k) + qn n * eq_).
Definition fq_pred_rounding (A : nat -> nat -> Q) (X : nat -> Q) (i : nat) : Q := (gq n - 1) * qsum n (fun k => Qabs (A i k) * X k) + qn n * gq n * eq_.
Definition fq_big_innovation (H : nat -> nat -> Q) (X Zb : nat -> Q) (j : nat) : Q := gq (n + 1) * (Zb j + qsum n (fun l => Qabs (H j l) * X l) + qn n * eq_).
Definition fq_inn_rounding (H : nat -> nat -> Q) (X Zb : nat -> Q) (j : nat) : Q := (gq (n + 1) - 1) * (Zb j + qsum n (fun l => Qabs (H j l) * X l)) + gq (n + 1) * eq_ * qn n.
Definition fq_big_correction (H K : nat -> nat -> Q) (X Zb : nat -> Q) (i : nat) : Q := gq (m + 1) * (X i + qsum m (fun j => Qabs (K i j) * fq_big_innovation H X Zb j) + qn m * eq_).
Definition fq_corr_rounding (H K : nat -> nat -> Q) (X Zb : nat -> Q) (i : nat) : Q :=
  (gq (m + 1) - 1) * (X i + qsum m (fun j => Qabs (K i j) * fq_big_innovation H X Zb j)) + gq (m + 1) * eq_ * qn m + qsum m (fun j => Qabs (K i j) * fq_inn_rounding H X Zb j).
Definition fq_turn_rounding (A H K : nat -> nat -> Q) (X Zb : nat -> Q) (i : nat) : Q :=
  fq_corr_rounding H K (fq_big_prediction A X) Zb i + fq_pred_rounding A X i + qsum m (fun j => Qabs (K i j) * qsum n (fun l => Qabs (H j l) * fq_pred_rounding A X l)).
Close Scope Q_scope.

Notation rr A := (fun i j => Q2R (A i j)). Notation rv X := (fun i => Q2R (X i)).
Lemma Q2R_uq : Q2R uq = uro prec. Proof. apply Q2R_pow2. Qed.
Lemma Q2R_eq_ : Q2R eq_ = eta prec emax. Proof. apply Q2R_pow2. Qed.
Lemma Q2R_gq k : Q2R (gq k) = ((1 + uro prec) ^ k)%R.
Proof. unfold gq. rewrite Q2R_qpow, Q2R_plus, Q2R_1, Q2R_uq. reflexivity. Qed.
Ltac q2r := repeat first [rewrite Q2R_plus | rewrite Q2R_minus | rewrite Q2R_mult | rewrite Q2R_gq | rewrite Q2R_eq_ | rewrite Q2R_qn | rewrite Q2R_1 | rewrite Q2R_abs | rewrite Q2R_qsum].
Lemma Q2R_dot K (f g : nat -> Q) : Q2R (qsum K (fun k => Qabs (f k) * g k)%Q) = rsum K (fun k => Rabs (Q2R (f k)) * Q2R (g k))%R.
Proof. rewrite Q2R_qsum. apply rsum_cong. intros k. rewrite Q2R_mult, Q2R_abs. reflexivity. Qed.
Lemma bp_q A X i : Q2R (fq_big_prediction A X i) = r_big_prediction prec emax n (rr A) (rv X) i.
Proof. unfold fq_big_prediction, r_big_prediction. rewrite Q2R_mult, Q2R_plus, Q2R_mult, Q2R_gq, Q2R_qn, Q2R_eq_, (Q2R_dot n (fun k => A i k) X). reflexivity. Qed.
Lemma pr_q A X i : Q2R (fq_pred_rounding A X i) = r_pred_rounding prec emax n (rr A) (rv X) i.
Proof. unfold fq_pred_rounding, r_pred_rounding. rewrite Q2R_plus, !Q2R_mult, Q2R_minus, Q2R_1, Q2R_gq, Q2R_qn, Q2R_eq_, (Q2R_dot n (fun k => A i k) X). reflexivity. Qed.
Lemma bi_q H X Zb j : Q2R (fq_big_innovation H X Zb j) = r_big_innovation prec emax n (rr H) (rv X) (rv Zb) j.
Proof. unfold fq_big_innovation, r_big_innovation. rewrite Q2R_mult, !Q2R_plus, Q2R_mult, Q2R_gq, Q2R_qn, Q2R_eq_, (Q2R_dot n (fun k => H j k) X). reflexivity. Qed.
Lemma ir_q H X Zb j : Q2R (fq_inn_rounding H X Zb j) = r_inn_rounding prec emax n (rr H) (rv X) (rv Zb) j.
Proof. unfold fq_inn_rounding, r_inn_rounding. rewrite Q2R_plus, !Q2R_mult, Q2R_minus, Q2R_plus, Q2R_1, Q2R_gq, Q2R_qn, Q2R_eq_, (Q2R_dot n (fun k => H j k) X). reflexivity. Qed.
Lemma bc_q H K X Zb i : Q2R (fq_big_correction H K X Zb i) = r_big_correction prec emax n m (rr H) (rr K) (rv X) (rv Zb) i.
Proof.
  unfold fq_big_correction, r_big_correction. rewrite Q2R_mult, !Q2R_plus, Q2R_mult, Q2R_gq, Q2R_qn, Q2R_eq_, (Q2R_dot m (fun k => K i k) _).
  rewrite (rsum_cong m _ (fun j => Rabs (Q2R (K i j)) * r_big_innovation prec emax n (rr H) (rv X) (rv Zb) j)%R) by (intros; rewrite bi_q; reflexivity). reflexivity.
Qed.
Lemma cr_q H K X Zb i : Q2R (fq_corr_rounding H K X Zb i) = r_corr_rounding prec emax n m (rr H) (rr K) (rv X) (rv Zb) i.
Proof.
  unfold fq_corr_rounding, r_corr_rounding. rewrite !Q2R_plus, !Q2R_mult, Q2R_minus, Q2R_plus, Q2R_1, Q2R_gq, Q2R_qn, Q2R_eq_, !(Q2R_dot m (fun k => K i k) _).
  rewrite (rsum_cong m (fun k => Rabs (Q2R (K i k)) * Q2R (fq_big_innovation H X Zb k))%R (fun j => Rabs (Q2R (K i j)) * r_big_innovation prec emax n (rr H) (rv X) (rv Zb) j)%R) by (intros; rewrite bi_q; reflexivity).
  rewrite (rsum_cong m (fun k => Rabs (Q2R (K i k)) * Q2R (fq_inn_rounding H X Zb k))%R (fun j => Rabs (Q2R (K i j)) * r_inn_rounding prec emax n (rr H) (rv X) (rv Zb) j)%R) by (intros; rewrite ir_q; reflexivity). reflexivity.
Qed.
Lemma bp_f A X : (fun i => Q2R (fq_big_prediction A X i)) = r_big_prediction prec emax n (rr A) (rv X).
Proof. apply functional_extensionality. intros. apply bp_q. Qed.
Lemma tr_q A H K X Zb i : Q2R (fq_turn_rounding A H K X Zb i) = r_turn_rounding prec emax n m (rr A) (rr H) (rr K) (rv X) (rv Zb) i.
Proof.
  unfold fq_turn_rounding, r_turn_rounding. rewrite !Q2R_plus, cr_q, pr_q, bp_f. f_equal. rewrite (Q2R_dot m (fun k => K i k) _). apply rsum_cong. intros j. f_equal.
  rewrite (Q2R_dot n (fun k => H j k) _). apply rsum_cong. intros l. f_equal. apply pr_q.
Qed.
Lemma rcell_f C l : (fun i j => Q2R (qcl C l i j)) = rcell C l.
Proof. apply functional_extensionality. intros i. apply functional_extensionality. intros j. apply Q2R_qcl. Qed.
Lemma ts_q A H K x z i : Q2R (q_turn_state n m A H K x z i) = r_turn_state n m (rr A) (rr H) (rr K) (rv x) (rv z) i.
Proof.
  assert (P : forall l, Q2R (q_predicted n A x l) = r_predicted n (rr A) (rv x) l).
  { intros l. unfold q_predicted, r_predicted. rewrite Q2R_qsum. apply rsum_cong. intros k. apply Q2R_mult. }
  unfold q_turn_state, r_turn_state, r_corrected. rewrite Q2R_plus, P, Q2R_qsum. f_equal. apply rsum_cong. intros j. rewrite Q2R_mult, Q2R_minus, Q2R_qsum. do 2 f_equal. apply rsum_cong. intros l.
  rewrite Q2R_mult, P. reflexivity.
Qed.

(** everything fits *)
Open Scope Q_scope.
Definition fq_room (A H K : nat -> nat -> Q) (X Zb : nat -> Q) : bool :=
  all_lt n (fun i => qlt_bool (fq_big_prediction A X i) (pow2 emax)) && all_lt m (fun j => qlt_bool (fq_big_innovation H (fq_big_prediction A X) Zb j) (pow2 emax)) &&
  all_lt n (fun i => qlt_bool (fq_big_correction H K (fq_big_prediction A X) Zb i) (pow2 emax)).
Close Scope Q_scope.
Lemma qlt_bool_R a b : qlt_bool a b = true -> (Q2R a < Q2R b)%R.
Proof. intros E. apply Qlt_Rlt, Qnot_le_lt. intros L. apply Qle_bool_iff in L. unfold qlt_bool in E. rewrite L in E. discriminate. Qed.
Lemma fq_room_ok A H K X Zb : fq_room A H K X Zb = true -> r_turn_room prec emax n m (rr A) (rr H) (rr K) (rv X) (rv Zb).
Proof.
  intros E. apply andb_prop in E. destruct E as (E & E3). apply andb_prop in E. destruct E as (E1 & E2). unfold too_big.
  split; [|split]; intros i Hi.
  - pose proof (qlt_bool_R _ _ (all_lt_spec _ _ E1 i Hi)) as L. rewrite bp_q, Q2R_pow2 in L. exact L.
  - pose proof (qlt_bool_R _ _ (all_lt_spec _ _ E2 i Hi)) as L. rewrite bi_q, bp_f, Q2R_pow2 in L. exact L.
  - pose proof (qlt_bool_R _ _ (all_lt_spec _ _ E3 i Hi)) as L. rewrite bc_q, bp_f, Q2R_pow2 in L. exact L.
Qed.

(** the sharper bounds *)
Open Scope Q_scope.
Variable s : nat -> nat.
Definition fq_near (A : nat -> nat -> Q) (X Yb : nat -> Q) (j : nat) : Q := Yb j + fq_pred_rounding A X (s j).
Definition fq_big_sel (A K : nat -> nat -> Q) (X Yb : nat -> Q) (i : nat) : Q :=
  gq (m + 1) * (fq_big_prediction A X i + qsum m (fun j => Qabs (K i j) * ((1 + uq) * fq_near A X Yb j)) + qn m * eq_).
Definition fq_sel_room (A K : nat -> nat -> Q) (X Yb : nat -> Q) : bool :=
  all_lt n (fun i => qlt_bool (fq_big_prediction A X i) (pow2 emax)) && all_lt m (fun j => qlt_bool ((1 + uq) * fq_near A X Yb j) (pow2 emax)) &&
  all_lt n (fun i => qlt_bool (fq_big_sel A K X Yb i) (pow2 emax)).
Definition fq_sel_rounding (A H K : nat -> nat -> Q) (X Yb : nat -> Q) (i : nat) : Q :=
  (gq (m + 1) - 1) * (fq_big_prediction A X i + qsum m (fun j => Qabs (K i j) * ((1 + uq) * fq_near A X Yb j))) + gq (m + 1) * eq_ * qn m
  + qsum m (fun j => Qabs (K i j) * (uq * fq_near A X Yb j))
  + qsum n (fun l => Qabs ((if (l =? i)%nat then 1 else 0) - qsum m (fun j => K i j * H j l)) * fq_pred_rounding A X l).
Close Scope Q_scope.
Lemma nr_q A X Yb j : Q2R (fq_near A X Yb j) = r_near prec emax n (rr A) (rv X) (rv Yb) s j.
Proof. unfold fq_near, r_near. rewrite Q2R_plus, pr_q. reflexivity. Qed.
Lemma kn_q A (K : nat -> nat -> Q) X Yb i : Q2R (qsum m (fun j => Qabs (K i j) * ((1 + uq) * fq_near A X Yb j))%Q) = rsum m (fun j => Rabs (Q2R (K i j)) * ((1 + uro prec) * r_near prec emax n (rr A) (rv X) (rv Yb) s j))%R.
Proof. rewrite (Q2R_dot m (fun j => K i j) _). apply rsum_cong. intros j. rewrite Q2R_mult, Q2R_plus, Q2R_1, Q2R_uq, nr_q. reflexivity. Qed.
Lemma bs_q A K X Yb i : Q2R (fq_big_sel A K X Yb i) = r_big_sel prec emax n m (rr A) (rr K) (rv X) (rv Yb) s i.
Proof. unfold fq_big_sel, r_big_sel. rewrite Q2R_mult, !Q2R_plus, Q2R_mult, Q2R_gq, Q2R_qn, Q2R_eq_, bp_q, kn_q. reflexivity. Qed.
Lemma fq_sel_room_ok A K X Yb : fq_sel_room A K X Yb = true -> r_sel_room prec emax n m (rr A) (rr K) (rv X) (rv Yb) s.
Proof.
  intros E. apply andb_prop in E. destruct E as (E & E3). apply andb_prop in E. destruct E as (E1 & E2). unfold r_sel_room, too_big.
  split; [|split]; intros i Hi.
  - pose proof (qlt_bool_R _ _ (all_lt_spec _ _ E1 i Hi)) as L. rewrite bp_q, Q2R_pow2 in L. exact L.
  - pose proof (qlt_bool_R _ _ (all_lt_spec _ _ E2 i Hi)) as L. rewrite Q2R_mult, Q2R_plus, Q2R_1, Q2R_uq, nr_q, Q2R_pow2 in L. exact L.
  - pose proof (qlt_bool_R _ _ (all_lt_spec _ _ E3 i Hi)) as L. rewrite bs_q, Q2R_pow2 in L. exact L.
Qed.
Lemma sr_q A H K X Yb i : Q2R (fq_sel_rounding A H K X Yb i) = r_sel_rounding prec emax n m (rr A) (rr H) (rr K) (rv X) (rv Yb) s i.
Proof.
  unfold fq_sel_rounding, r_sel_rounding. rewrite !Q2R_plus, !Q2R_mult, Q2R_minus, Q2R_plus, Q2R_1, Q2R_gq, Q2R_qn, Q2R_eq_, bp_q, kn_q. f_equal; [f_equal|].
  - rewrite (Q2R_dot m (fun j => K i j) _). apply rsum_cong. intros j. rewrite Q2R_mult, Q2R_uq, nr_q. reflexivity.
  - rewrite (Q2R_dot n (fun l => (if (l =? i)%nat then 1 else 0) - qsum m (fun j => K i j * H j l))%Q _). apply rsum_cong. intros l. rewrite pr_q, Q2R_minus, Q2R_qsum. f_equal. f_equal. f_equal.
    + destruct (l =? i)%nat; [apply Q2R_1|apply Q2R_0].
    + apply rsum_cong. intros j. apply Q2R_mult.
Qed.
End Bounds.

(** ** runs: while the states are within B each turn follows the table up to e, so they stay within B; [good] is whatever else is kept *)
Section Path.
Variables (n m : nat) (F K : nat -> nat -> nat -> Q) (e : nat -> nat -> Q) (Zb B x0 : nat -> Q) (rnd : Q -> Q) (d T : nat) (x z : nat -> nat -> Q) (good : nat -> Prop).
Open Scope Q_scope.
Hypothesis Hx0 : forall i, (i < n)%nat -> x 0%nat i == x0 i.
Hypothesis Hz : forall t j, (t < T)%nat -> (j < m)%nat -> Qabs (z t j) <= Zb j.
Definition within (t : nat) : Prop := forall i, (i < n)%nat -> Qabs (x t i) <= B i.
Definition step_ok (t : nat) : Prop := forall i, (i < n)%nat -> Qabs (x (S t) i - (qsum n (fun k => F t i k * x t k) + qsum m (fun j => K t i j * z t j))) <= e t i.
Hypothesis H0 : good 0.
Hypothesis Hstep : forall t, (t < T)%nat -> within t -> good t -> step_ok t /\ good (S t).
Hypothesis Hd : (1 <= d)%nat.
Hypothesis HC : forall t i, (t <= T)%nat -> (i < n)%nat -> fbound n m F K e Zb B x0 rnd d t (unit_ n i) <= B i.
Lemma path_within : forall t, (t <= T)%nat -> within t /\ good t.
Proof.
  intros t. induction t as [t IH] using (well_founded_induction lt_wf). intros Ht. split.
  - intros i Hi. apply (stays_within n m F K e Zb B x0 rnd x z t Hx0) with (d := d); auto; try lia.
    + intros s j Hs Hj. apply Hz; [lia|exact Hj].
    + intros s k Hs Hk. destruct (IH s Hs ltac:(lia)) as (W & G). apply (Hstep s ltac:(lia) W G), Hk.
    + intros s k Hs Hk. apply HC; [lia|exact Hk].
  - destruct t as [|t]; [exact H0|]. destruct (IH t ltac:(lia) ltac:(lia)) as (W & G). apply (Hstep t ltac:(lia) W G).
Qed.
Lemma path_steps : forall t, (t < T)%nat -> step_ok t.
Proof. intros t Ht. destruct (path_within t ltac:(lia)) as (W & G). apply (Hstep t Ht W G). Qed.
End Path.
