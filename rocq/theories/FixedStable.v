(** * Fixed point: a contracting system stays in range for ever, and its rounding errors do not pile up *)
From Coq Require Import ZArith QArith Qabs Lia Lqa Psatz.
From Verif Require Import Prelude Spec SpecBits Matrix Filter SpecFilter Kernels FilterTwo HistGen FixedNum SpecFixed SpecFixedRange BitsProof Defined FixedProof FixedRange FixedSteps.
Open Scope Q_scope.

(** ** pure arithmetic *)
Lemma qdot_abs K (f g : nat -> Q) b D : 0 <= D -> qsum K (fun k => Qabs (f k)) <= b -> (forall k, (k < K)%nat -> Qabs (g k) <= D) ->
  0 <= qsum K (fun k => Qabs (f k * g k)) /\ qsum K (fun k => Qabs (f k * g k)) <= b * D.
Proof.
  intros HD Hf Hg. split; [apply qsum_pos; intros; apply Qabs_nonneg|].
  eapply Qle_trans; [apply qsum_le with (g := fun k => Qabs (f k) * D)|].
  - intros k Hk. rewrite Qabs_Qmult, (Qmult_comm (Qabs (f k)) (Qabs (g k))), (Qmult_comm (Qabs (f k)) D). apply Qmult_le_compat_r; [|apply Qabs_nonneg]. apply Hg, Hk.
  - rewrite qsum_scal. apply Qmult_le_compat_r; auto.
Qed.
Lemma qdot_le K (f g : nat -> Q) b D : 0 <= D -> qsum K (fun k => Qabs (f k)) <= b -> (forall k, (k < K)%nat -> Qabs (g k) <= D) ->
  Qabs (qsum K (fun k => f k * g k)) <= b * D.
Proof. intros HD Hf Hg. eapply Qle_trans; [apply qsum_abs|]. apply (qdot_abs K f g b D HD Hf Hg). Qed.
Lemma qmat_abs K1 K2 (s : nat -> Q) (t : nat -> nat -> Q) (a : nat -> Q) b D e : 0 <= D -> 0 <= b -> 0 <= e -> qsum K1 (fun l => Qabs (s l)) <= b -> (forall l k, (l < K1)%nat -> (k < K2)%nat -> Qabs (t l k) <= D) ->
  qsum K2 (fun k => Qabs (a k)) <= b ->
  qsum K2 (fun k => (qsum K1 (fun l => Qabs (s l * t l k)) + e) * Qabs (a k)) <= b * (b * D + e).
Proof.
  intros HD Hb He Hs Ht Ha. eapply Qle_trans; [apply qsum_le with (g := fun k => Qabs (a k) * (b * D + e))|].
  - intros k Hk. rewrite Qmult_comm. rewrite (Qmult_comm (Qabs (a k)) (b * D + e)), (Qmult_comm (Qabs (a k))). apply Qmult_le_compat_r; [|apply Qabs_nonneg].
    pose proof (qdot_abs K1 s (fun l => t l k) b D HD Hs ltac:(intros; apply Ht; auto)) as (_ & H). lra.
  - rewrite qsum_scal. apply Qmult_le_compat_r; [exact Ha|]. assert (0 <= b * D) by (apply Qmult_le_0_compat; auto). lra.
Qed.
Lemma qmat_le K1 K2 (s : nat -> Q) (t : nat -> nat -> Q) (a : nat -> Q) b D : 0 <= D -> 0 <= b -> qsum K1 (fun l => Qabs (s l)) <= b -> (forall l k, (l < K1)%nat -> (k < K2)%nat -> Qabs (t l k) <= D) ->
  qsum K2 (fun k => Qabs (a k)) <= b ->
  Qabs (qsum K2 (fun k => qsum K1 (fun l => s l * t l k) * a k)) <= b * b * D.
Proof.
  intros HD Hb Hs Ht Ha. eapply Qle_trans; [apply qsum_abs|]. eapply Qle_trans; [apply qsum_le with (g := fun k => (qsum K1 (fun l => Qabs (s l * t l k)) + 0) * Qabs (a k))|].
  - intros k Hk. rewrite Qabs_Qmult. apply Qmult_le_compat_r; [|apply Qabs_nonneg]. rewrite Qplus_0_r. apply qsum_abs.
  - eapply Qle_trans; [apply (qmat_abs K1 K2 s t a b D 0)|]; auto; lra.
Qed.
Lemma near a b s e : Qabs (a - s) <= e -> Qabs s <= b -> Qabs a <= b + e.
Proof. intros H1 H2. apply Qabs_le_iff in H1. apply Qabs_le_iff in H2. apply Qabs_le_iff. split; lra. Qed.

Section Stable.
Variables (c : cfg) (bits frac : Z).
Hypothesis Hf : (0 <= frac)%Z.
Notation w := (ulp frac).
Notation top := (fx_top bits frac).
Notation qc := (qcell frac).
Notation qrows := (q_rows_within frac).
Notation qmost := (q_at_most frac).

Lemma qmost_pos R C l M : (1 <= R)%nat -> (1 <= C)%nat -> qmost R C l M -> 0 <= M.
Proof. intros HR HC H. eapply Qle_trans; [apply Qabs_nonneg|apply (H 0%nat 0%nat)]; lia. Qed.
Lemma qrows_pos R C l b : (1 <= R)%nat -> qrows R C l b -> 0 <= b.
Proof. intros HR H. eapply Qle_trans; [|apply (H 0%nat)]; [|lia]. apply qsum_pos. intros. apply Qabs_nonneg. Qed.

Lemma qpredict_lv n (f : kalman Z) rho q X M : (1 <= n)%nat -> kf_valid c n f ->
  qrows n n (kf_A f) rho -> qmost n n (kf_Q f) q -> qmost n 1 (kf_x f) X -> qmost n n (kf_P f) M ->
  rho * X + qn n * w <= top -> rho * M + qn n * w <= top -> q + rho * rho * M + qn n * (1 + rho) * w <= top ->
  exists f', (forall oc da, predict c (fx_num bits frac oc da) n f = Ok f') /\ kf_valid c n f' /\ kf_same_model f f' /\
  (forall i, (i < n)%nat -> Qabs (qc 1 (kf_x f') i 0 - qsum n (fun k => qc n (kf_A f) i k * qc 1 (kf_x f) k 0)) <= qn n * w) /\
  (forall i j, (i < n)%nat -> (j < n)%nat -> Qabs (qc n (kf_P f') i j - (qsum n (fun k => qsum n (fun l => qc n (kf_A f) i l * qc n (kf_P f) l k) * qc n (kf_A f) j k) + qc n (kf_Q f) i j)) <= qn n * (1 + rho) * w) /\
  qmost n 1 (kf_x f') (rho * X + qn n * w) /\ qmost n n (kf_P f') (q + rho * rho * M + qn n * (1 + rho) * w).
Proof.
  intros Hn Hv RA BQ Bx BP H1 H2 H3.
  pose proof (qmost_pos _ _ _ _ Hn (le_n 1) Bx) as HX. pose proof (qmost_pos _ _ _ _ Hn Hn BP) as HM. pose proof (qmost_pos _ _ _ _ Hn Hn BQ) as HQ. pose proof (qrows_pos _ _ _ _ Hn RA) as Hr.
  pose proof (wpos frac Hf) as Hw. pose proof (qn_pos n) as Hq. pose proof (nw0 frac Hf n) as Hnw.
  destruct (fx_predict_range c bits frac Hf n f Hn Hv) as (f' & E & _).
  - intros i Hi. unfold fx_vec_room. change (Qabs 0) with 0. pose proof (qdot_abs n (fun k => qc n (kf_A f) i k) (fun k => qc 1 (kf_x f) k 0) rho X HX (RA i Hi) ltac:(intros; apply Bx; auto)) as (_ & D). lra.
  - intros i j Hi Hj. split.
    + intros k Hk. unfold fx_vec_room. change (Qabs 0) with 0. pose proof (qdot_abs n (fun l => qc n (kf_A f) i l) (fun l => qc n (kf_P f) l k) rho M HM (RA i Hi) ltac:(intros; apply BP; auto)) as (_ & D). lra.
    + pose proof (qmat_abs n n (fun l => qc n (kf_A f) i l) (fun l k => qc n (kf_P f) l k) (fun k => qc n (kf_A f) j k) rho M (qn n * w) HM Hr Hnw (RA i Hi) ltac:(intros; apply BP; auto) (RA j Hj)) as D.
      pose proof (BQ i j Hi Hj) as D2. set (S := qsum n _) in *. nra.
  - exists f'. split; [exact E|]. specialize (E true true). destruct (fx_predict c bits frac Hf n f f' Hn Hv E) as (GX & GP).
    pose proof (predict_wp c (fx_num bits frac true true) n f Hn Hv) as HW. rewrite E in HW. cbn [wp] in HW. destruct HW as (Vf' & SM & _). split; [exact Vf'|]. split; [exact SM|].
    assert (EX : forall i, (i < n)%nat -> Qabs (qc 1 (kf_x f') i 0 - qsum n (fun k => qc n (kf_A f) i k * qc 1 (kf_x f) k 0)) <= qn n * w).
    { intros i Hi. destruct (GX i Hi) as (r & Er & B1 & B2). unfold qcell at 1. rewrite Er. apply Qabs_le_iff. split; lra. }
    assert (EP : forall i j, (i < n)%nat -> (j < n)%nat -> Qabs (qc n (kf_P f') i j - (qsum n (fun k => qsum n (fun l => qc n (kf_A f) i l * qc n (kf_P f) l k) * qc n (kf_A f) j k) + qc n (kf_Q f) i j)) <= qn n * (1 + rho) * w).
    { intros i j Hi Hj. destruct (GP i j Hi Hj) as (r & Er & B). cbv zeta in B. unfold qcell at 1. rewrite Er. eapply Qle_trans; [exact B|].
      specialize (RA j Hj). set (W := qsum n (fun k => Qabs (qc n (kf_A f) j k))) in *. nra. }
    split; [exact EX|]. split; [exact EP|]. split.
    + intros i j Hi Hj. replace j with 0%nat by lia. eapply near; [apply EX, Hi|]. apply qdot_le; auto.
    + intros i j Hi Hj. eapply near; [apply EP; auto|]. eapply Qle_trans; [apply Qabs_triangle|]. rewrite (Qplus_comm q). apply Qplus_le_compat; [|apply BQ; auto].
      apply (qmat_le n n (fun l => qc n (kf_A f) i l) (fun l k => qc n (kf_P f) l k) (fun k => qc n (kf_A f) j k)); auto.
Qed.

Lemma qcontrol_lv n m (k : control Z) (f : kalman Z) beta U qu X M : (1 <= n)%nat -> (1 <= m)%nat -> kf_valid c n f -> ct_valid c n m k ->
  qrows n m (ct_B k) beta -> qmost m 1 (ct_u k) U -> qmost m m (ct_Q k) qu -> qmost n 1 (kf_x f) X -> qmost n n (kf_P f) M ->
  X + beta * U + qn m * w <= top -> beta * qu + qn m * w <= top -> M + beta * beta * qu + qn m * (1 + beta) * w <= top ->
  exists k' f', (forall oc da, control_ c (fx_num bits frac oc da) n m k f = Ok (k', f')) /\ kf_valid c n f' /\ kf_same_model f f' /\ ct_valid c n m k' /\ ct_same_model k k' /\
  (forall i, (i < n)%nat -> Qabs (qc 1 (kf_x f') i 0 - (qc 1 (kf_x f) i 0 + qsum m (fun l => qc m (ct_B k) i l * qc 1 (ct_u k) l 0))) <= qn m * w) /\
  (forall i j, (i < n)%nat -> (j < n)%nat -> Qabs (qc n (kf_P f') i j - (qc n (kf_P f) i j + qsum m (fun p => qsum m (fun l => qc m (ct_B k) i l * qc m (ct_Q k) l p) * qc m (ct_B k) j p))) <= qn m * (1 + beta) * w) /\
  qmost n 1 (kf_x f') (X + beta * U + qn m * w) /\ qmost n n (kf_P f') (M + beta * beta * qu + qn m * (1 + beta) * w).
Proof.
  intros Hn Hm Hv Hk RB Bu BQ Bx BP H1 H2 H3.
  pose proof (qmost_pos _ _ _ _ Hn (le_n 1) Bx) as HX. pose proof (qmost_pos _ _ _ _ Hn Hn BP) as HM. pose proof (qmost_pos _ _ _ _ Hm Hm BQ) as HQ. pose proof (qmost_pos _ _ _ _ Hm (le_n 1) Bu) as HU. pose proof (qrows_pos _ _ _ _ Hn RB) as Hr.
  pose proof (wpos frac Hf) as Hw. pose proof (qn_pos m) as Hq. pose proof (nw0 frac Hf m) as Hnw.
  destruct (fx_control_range c bits frac Hf n m k f Hn Hm Hv Hk) as (k' & f' & E & _).
  - intros i Hi. unfold fx_vec_room. pose proof (qdot_abs m (fun l => qc m (ct_B k) i l) (fun l => qc 1 (ct_u k) l 0) beta U HU (RB i Hi) ltac:(intros; apply Bu; auto)) as (_ & D). pose proof (Bx i 0%nat Hi (le_n 1)). lra.
  - intros i j Hi Hj. split.
    + intros p Hp. unfold fx_vec_room. change (Qabs 0) with 0. pose proof (qdot_abs m (fun l => qc m (ct_B k) i l) (fun l => qc m (ct_Q k) l p) beta qu HQ (RB i Hi) ltac:(intros; apply BQ; auto)) as (_ & D). lra.
    + pose proof (qmat_abs m m (fun l => qc m (ct_B k) i l) (fun l p => qc m (ct_Q k) l p) (fun p => qc m (ct_B k) j p) beta qu (qn m * w) HQ Hr Hnw (RB i Hi) ltac:(intros; apply BQ; auto) (RB j Hj)) as D.
      pose proof (BP i j Hi Hj) as D2. set (S := qsum m _) in *. nra.
  - exists k', f'. split; [exact E|]. specialize (E true true). destruct (fx_control c bits frac Hf n m k k' f f' Hn Hm Hv Hk E) as (GX & GP). cbv zeta in GX, GP.
    pose proof (control_wp c (fx_num bits frac true true) n m k f Hk Hv) as HW. rewrite E in HW. cbn [wp] in HW. destruct HW as (Vk' & SMk & Vf' & SM & _). split; [exact Vf'|]. split; [exact SM|]. split; [exact Vk'|]. split; [exact SMk|].
    assert (EX : forall i, (i < n)%nat -> Qabs (qc 1 (kf_x f') i 0 - (qc 1 (kf_x f) i 0 + qsum m (fun l => qc m (ct_B k) i l * qc 1 (ct_u k) l 0))) <= qn m * w).
    { intros i Hi. destruct (GX i Hi) as (B1 & B2). apply Qabs_le_iff. split; lra. }
    assert (EP : forall i j, (i < n)%nat -> (j < n)%nat -> Qabs (qc n (kf_P f') i j - (qc n (kf_P f) i j + qsum m (fun p => qsum m (fun l => qc m (ct_B k) i l * qc m (ct_Q k) l p) * qc m (ct_B k) j p))) <= qn m * (1 + beta) * w).
    { intros i j Hi Hj. eapply Qle_trans; [apply GP; auto|]. specialize (RB j Hj). set (W := qsum m (fun p => Qabs (qc m (ct_B k) j p))) in *. nra. }
    split; [exact EX|]. split; [exact EP|]. split.
    + intros i j Hi Hj. replace j with 0%nat by lia. eapply near; [apply EX, Hi|]. eapply Qle_trans; [apply Qabs_triangle|]. apply Qplus_le_compat; [apply Bx; auto|]. apply qdot_le; auto.
    + intros i j Hi Hj. eapply near; [apply EP; auto|]. eapply Qle_trans; [apply Qabs_triangle|]. apply Qplus_le_compat; [apply BP; auto|].
      apply (qmat_le m m (fun l => qc m (ct_B k) i l) (fun l p => qc m (ct_Q k) l p) (fun p => qc m (ct_B k) j p)); auto.
Qed.

(** ** one turn, and any number of them *)
Variables (n m : nat) (A Qn B Qu : list Z) (rho beta U q qu X M : Q).
Hypotheses (Hn : (1 <= n)%nat) (Hm : (1 <= m)%nat) (HU : 0 <= U) (HK : fx_keeps bits frac n m rho beta U q qu X M).
Notation rA := (qc n A). Notation rQ := (qc n Qn). Notation rB := (qc m B). Notation rQu := (qc m Qu).
Hypotheses (RA : qrows n n A rho) (BQ : qmost n n Qn q) (RB : qrows n m B beta) (BQu : qmost m m Qu qu).

Definition qlevel (wd : world Z) : Prop := exists k cs, w_ct wd = (m, k) :: cs /\ let f := w_kf wd in
  kf_A f = A /\ kf_Q f = Qn /\ ct_B k = B /\ ct_Q k = Qu /\ kf_valid c n f /\ ct_valid c n m k /\
  qmost n 1 (kf_x f) X /\ qmost n n (kf_P f) M.
Definition qst (wd : world Z) : (nat -> Q) * (nat -> nat -> Q) := (fun i => qc 1 (kf_x (w_kf wd)) i 0, qc n (kf_P (w_kf wd))).

Lemma qput_u (k : control Z) (v : list Z) : ct_valid c n m k -> length v = m -> forall i, (i < m)%nat -> cell 1 (put (ct_u k) v) i 0 = cell 1 v i 0.
Proof.
  intros (_ & (V & _) & _) L i Hi. unfold cell. rewrite nth_put by lia. destruct (Nat.ltb_spec (i * 1 + 0) (length v)); [reflexivity|lia].
Qed.

Lemma qturn_lv wd t : qlevel wd -> fx_turn_ok frac m U t ->
  exists wd', (forall oc da, run c (fx_num bits frac oc da) n wd (fx_turn_ops t) = Ok wd') /\ qlevel wd' /\
  (forall i, (i < n)%nat -> Qabs (fst (qst wd') i - fst (q_turn frac n m rA rQ rB rQu t (qst wd)) i) <= fx_turn_err frac n m) /\
  (forall i j, (i < n)%nat -> (j < n)%nat -> Qabs (snd (qst wd') i j - snd (q_turn frac n m rA rQ rB rQu t (qst wd)) i j) <= fx_turn_cov_err frac n m rho beta).
Proof.
  intros (k & cs & Ect & EA & EQ & EB & EQu & Vf & Vk & Bx & BP) Ht.
  destruct wd as [f cts obs]. cbn [w_kf w_ct] in *. subst cts.
  pose proof (qmost_pos _ _ _ _ Hn (le_n 1) Bx) as HX. pose proof (qmost_pos _ _ _ _ Hn Hn BP) as HM. pose proof (qmost_pos _ _ _ _ Hn Hn BQ) as Hq. pose proof (qmost_pos _ _ _ _ Hm Hm BQu) as Hqu.
  pose proof (qrows_pos _ _ _ _ Hn RA) as Hr. pose proof (qrows_pos _ _ _ _ Hn RB) as Hb. pose proof (wpos frac Hf) as Hw. pose proof (qn_pos n) as HN. pose proof (qn_pos m) as HMm.
  destruct HK as (K1 & K2 & K3 & K4 & K5 & K6). cbv zeta in *.
  assert (D1 : 0 <= beta * U) by (apply Qmult_le_0_compat; auto). assert (D2 : 0 <= beta * beta * qu) by (apply Qmult_le_0_compat; [apply Qmult_le_0_compat|]; auto).
  assert (D3 : 0 <= qn m * w) by (apply Qmult_le_0_compat; lra). assert (D4 : 0 <= qn m * (1 + beta) * w) by (apply Qmult_le_0_compat; [apply Qmult_le_0_compat|]; lra).
  set (X1 := rho * X + qn n * w) in *. set (M1 := q + rho * rho * M + qn n * (1 + rho) * w) in *.
  assert (LX : X1 + beta * U + qn m * w <= X) by (unfold X1; lra). assert (LM : M1 + beta * beta * qu + qn m * (1 + beta) * w <= M) by (unfold M1; lra).
  destruct (qpredict_lv n f rho q X M Hn Vf) as (f1 & E1 & Vf1 & (SA & SQ) & HX' & HP' & Bx1 & BP1); try (rewrite ?EA, ?EQ; assumption).
  { fold X1. lra. } { fold M1. lra. }
  rewrite EA in SA. rewrite EQ in SQ. rewrite EA in HX'. rewrite EA, EQ in HP'. fold X1 in Bx1. fold M1 in BP1.
  destruct t as [v|]; unfold fx_turn_ops.
  - destruct Ht as (L & Bv). set (k1 := mk_ctl (ct_B k) (put (ct_u k) v) (ct_Q k) (ct_BQ k)).
    pose proof (qput_u k v Vk L) as PU. assert (PR : forall i, (i < m)%nat -> qc 1 (ct_u k1) i 0 = qc 1 v i 0) by (intros i Hi; unfold qcell; cbn [k1 ct_u]; rewrite (PU i Hi); reflexivity).
    assert (Vk1 : ct_valid c n m k1). { destruct Vk as (V1 & V2 & V3 & V4). repeat split; cbn [k1 ct_B ct_u ct_Q ct_BQ]; try apply V1; try apply V3; try apply V4; apply (put_valid c m 1 _ v V2). }
    destruct (qcontrol_lv n m k1 f1 beta U qu X1 M1 Hn Hm Vf1 Vk1) as (k2 & f2 & E2 & Vf2 & (SA2 & SQ2) & Vk2 & (SB2 & Su2 & SQu2) & HX2 & HP2 & Bx2 & BP2); try (cbn [k1 ct_B ct_Q]; rewrite ?EB, ?EQu; assumption).
    { intros i j Hi Hj. assert (j = 0)%nat by lia. subst j. rewrite (PR i Hi). apply Bv; auto. }
    { lra. } { lra. }
    change (ct_B k1) with (ct_B k) in *. change (ct_Q k1) with (ct_Q k) in *. rewrite EB in *. rewrite EQu in *.
    exists (mk_world f2 ((m, k2) :: cs) obs). split.
    { intros oc da. cbn [run step w_kf w_ct]. rewrite (E1 oc da). cbn [bind run step set_kf w_kf w_ct w_ob nth_error]. unfold set_ct, set_kf. cbn [w_kf w_ct w_ob upd run step nth_error bind].
      fold k1. rewrite (E2 oc da). reflexivity. }
    assert (Bx3 : qmost n 1 (kf_x f2) X) by (intros i j Hi Hj; eapply Qle_trans; [apply Bx2; auto|exact LX]).
    assert (BP3 : qmost n n (kf_P f2) M) by (intros i j Hi Hj; eapply Qle_trans; [apply BP2; auto|exact LM]).
    split; [exists k2, cs; cbn [w_kf w_ct]; repeat (split; [first [assumption|congruence]|]); assumption|].
    cbn [qst fst snd w_kf q_turn]. unfold fx_turn_err, fx_turn_cov_err. split.
    + intros i Hi. pose proof (HX2 i Hi) as T2. pose proof (HX' i Hi) as T1.
      assert (EE : qsum m (fun l => qc m B i l * qc 1 (ct_u k1) l 0) == qsum m (fun l => qc m B i l * qc 1 v l 0)) by (apply qsum_ext; intros l Hl; rewrite (PR l Hl); reflexivity).
      rewrite EE in T2. clear EE. set (x2 := qc 1 (kf_x f2) i 0) in *. set (x1 := qc 1 (kf_x f1) i 0) in *. set (a := qsum n _) in *. set (b := qsum m _) in *.
      apply Qabs_le_iff in T1. apply Qabs_le_iff in T2. apply Qabs_le_iff. split; lra.
    + intros i j Hi Hj. pose proof (HP2 i j Hi Hj) as T2. pose proof (HP' i j Hi Hj) as T1.
      set (x2 := qc n (kf_P f2) i j) in *. set (x1 := qc n (kf_P f1) i j) in *. set (a := qsum n _) in *. set (b := qsum m _) in *.
      apply Qabs_le_iff in T1. apply Qabs_le_iff in T2. apply Qabs_le_iff. split; lra.
  - exists (mk_world f1 ((m, k) :: cs) obs). split; [intros oc da; cbn [run step w_kf w_ct]; rewrite (E1 oc da); reflexivity|].
    assert (Bx2 : qmost n 1 (kf_x f1) X) by (intros i j Hi Hj; eapply Qle_trans; [apply Bx1; auto|lra]).
    assert (BP2 : qmost n n (kf_P f1) M) by (intros i j Hi Hj; eapply Qle_trans; [apply BP1; auto|lra]).
    split; [exists k, cs; cbn [w_kf w_ct]; repeat (split; [first [assumption|congruence]|]); assumption|].
    cbn [qst fst snd w_kf q_turn]. unfold fx_turn_err, fx_turn_cov_err. split.
    + intros i Hi. pose proof (HX' i Hi) as T1. rewrite Qplus_0_r. lra.
    + intros i j Hi Hj. pose proof (HP' i j Hi Hj) as T1. rewrite Qplus_0_r. lra.
Qed.

Lemma qrun_app (N : num Z) wd os1 os2 : run c N n wd (os1 ++ os2) = bind (run c N n wd os1) (fun w' => run c N n w' os2).
Proof.
  revert wd. induction os1 as [|o os IH]; intros wd; cbn [app run]; [reflexivity|]. destruct (step c N n wd o) as [w'|p]; cbn [bind]; [apply IH|reflexivity].
Qed.

Lemma q_near t s1 s2 dx dP : (forall i, (i < n)%nat -> Qabs (fst s1 i - fst s2 i) <= dx) -> (forall i j, (i < n)%nat -> (j < n)%nat -> Qabs (snd s1 i j - snd s2 i j) <= dP) ->
  0 <= dx -> 0 <= dP -> 0 <= rho ->
  (forall i, (i < n)%nat -> Qabs (fst (q_turn frac n m rA rQ rB rQu t s1) i - fst (q_turn frac n m rA rQ rB rQu t s2) i) <= rho * dx) /\
  (forall i j, (i < n)%nat -> (j < n)%nat -> Qabs (snd (q_turn frac n m rA rQ rB rQu t s1) i j - snd (q_turn frac n m rA rQ rB rQu t s2) i j) <= rho * rho * dP).
Proof.
  intros H1 H2 D1 D2 Hr. cbn [q_turn fst snd]. split.
  - intros i Hi. set (b := match t with Some _ => _ | None => _ end).
    setoid_replace (qsum n (fun k => rA i k * fst s1 k) + b - (qsum n (fun k => rA i k * fst s2 k) + b)) with (qsum n (fun k => rA i k * (fst s1 k - fst s2 k))).
    + apply qdot_le; auto.
    + rewrite (qsum_ext n (fun k => rA i k * (fst s1 k - fst s2 k)) (fun k => rA i k * fst s1 k - rA i k * fst s2 k)) by (intros; ring). rewrite qsum_minus. ring.
  - intros i j Hi Hj. set (b := match t with Some _ => _ | None => _ end).
    setoid_replace (qsum n (fun k => qsum n (fun l => rA i l * snd s1 l k) * rA j k) + rQ i j + b - (qsum n (fun k => qsum n (fun l => rA i l * snd s2 l k) * rA j k) + rQ i j + b))
      with (qsum n (fun k => qsum n (fun l => rA i l * (snd s1 l k - snd s2 l k)) * rA j k)).
    + apply (qmat_le n n (fun l => rA i l) (fun l k => snd s1 l k - snd s2 l k) (fun k => rA j k)); auto.
    + rewrite (qsum_ext n (fun k => qsum n (fun l => rA i l * (snd s1 l k - snd s2 l k)) * rA j k) (fun k => qsum n (fun l => rA i l * snd s1 l k) * rA j k - qsum n (fun l => rA i l * snd s2 l k) * rA j k)).
      * rewrite qsum_minus. ring.
      * intros k Hk. rewrite (qsum_ext n (fun l => rA i l * (snd s1 l k - snd s2 l k)) (fun l => rA i l * snd s1 l k - rA i l * snd s2 l k)) by (intros; ring). rewrite qsum_minus. ring.
Qed.

Lemma qturns_near ts wd s dx dP : qlevel wd -> Forall (fx_turn_ok frac m U) ts -> 0 <= rho ->
  (forall i, (i < n)%nat -> Qabs (fst (qst wd) i - fst s i) <= dx) -> (forall i j, (i < n)%nat -> (j < n)%nat -> Qabs (snd (qst wd) i j - snd s i j) <= dP) ->
  rho * dx + fx_turn_err frac n m <= dx -> rho * rho * dP + fx_turn_cov_err frac n m rho beta <= dP ->
  exists wd', (forall oc da, run c (fx_num bits frac oc da) n wd (fx_turns_ops ts) = Ok wd') /\ qlevel wd' /\
  (forall i, (i < n)%nat -> Qabs (fst (qst wd') i - fst (q_ideal frac n m rA rQ rB rQu ts s) i) <= dx) /\
  (forall i j, (i < n)%nat -> (j < n)%nat -> Qabs (snd (qst wd') i j - snd (q_ideal frac n m rA rQ rB rQu ts s) i j) <= dP).
Proof.
  revert wd s. induction ts as [|t ts IH]; intros wd s L H Hr Dx DP Cx CP; [exists wd; split; [reflexivity|split; [exact L|split; assumption]]|]. inversion H; subst.
  destruct (qturn_lv wd t L) as (w1 & E1 & L1 & T1 & T2); [assumption|].
  assert (Zx : 0 <= dx) by (eapply Qle_trans; [apply Qabs_nonneg|apply (Dx 0%nat); lia]). assert (ZP : 0 <= dP) by (eapply Qle_trans; [apply Qabs_nonneg|apply (DP 0%nat 0%nat); lia]).
  destruct (q_near t (qst wd) s dx dP Dx DP Zx ZP Hr) as (N1 & N2).
  destruct (IH w1 (q_turn frac n m rA rQ rB rQu t s)) as (w2 & E2 & L2 & R1 & R2); auto.
  - intros i Hi. specialize (T1 i Hi). specialize (N1 i Hi). set (a := fst (qst w1) i) in *. set (b := fst (q_turn _ _ _ _ _ _ _ _ (qst wd)) i) in *. set (d := fst (q_turn _ _ _ _ _ _ _ _ s) i) in *.
    apply Qabs_le_iff in T1. apply Qabs_le_iff in N1. apply Qabs_le_iff. split; lra.
  - intros i j Hi Hj. specialize (T2 i j Hi Hj). specialize (N2 i j Hi Hj). set (a := snd (qst w1) i j) in *. set (b := snd (q_turn _ _ _ _ _ _ _ _ (qst wd)) i j) in *. set (d := snd (q_turn _ _ _ _ _ _ _ _ s) i j) in *.
    apply Qabs_le_iff in T2. apply Qabs_le_iff in N2. apply Qabs_le_iff. split; lra.
  - exists w2. split; [|split; [exact L2|split; [exact R1|exact R2]]]. intros oc da. unfold fx_turns_ops. cbn [flat_map]. rewrite qrun_app, (E1 oc da). exact (E2 oc da).
Qed.
Lemma qturns_level ts wd : qlevel wd -> Forall (fx_turn_ok frac m U) ts -> exists wd', (forall oc da, run c (fx_num bits frac oc da) n wd (fx_turns_ops ts) = Ok wd') /\ qlevel wd'.
Proof.
  revert wd. induction ts as [|t ts IH]; intros wd L H; [exists wd; split; [reflexivity|exact L]|]. inversion H; subst.
  destruct (qturn_lv wd t L) as (w1 & E1 & L1 & _); [assumption|]. destruct (IH w1 L1) as (w2 & E2 & L2); [assumption|].
  exists w2. split; [|exact L2]. intros oc da. unfold fx_turns_ops. cbn [flat_map]. rewrite qrun_app, (E1 oc da). exact (E2 oc da).
Qed.
End Stable.

Lemma qsetup_level c frac n m f k rho beta U q qu X M cs obs : fx_setup c frac n m f k rho beta U q qu X M ->
  qlevel c frac n m (kf_A f) (kf_Q f) (ct_B k) (ct_Q k) X M (mk_world f ((m, k) :: cs) obs).
Proof. intros (H1 & H2 & H3 & H4 & H5 & H6 & H7 & H8 & H9). exists k, cs. repeat (split; [first [assumption|reflexivity]|]). assumption. Qed.

Theorem fx_forever : forall (c : cfg) (bits frac : Z), (0 <= frac)%Z -> forall (n m : nat) (f : kalman Z) (k : control Z) (rho beta U q qu X M : Q),
  (1 <= n)%nat -> (1 <= m)%nat -> fx_setup c frac n m f k rho beta U q qu X M -> fx_keeps bits frac n m rho beta U q qu X M ->
  forall (cs : list (nat * control Z)) (obs : list (nat * observation Z)) (ts : list fx_turn), Forall (fx_turn_ok frac m U) ts ->
  exists w', (forall oc da, run c (fx_num bits frac oc da) n (mk_world f ((m, k) :: cs) obs) (fx_turns_ops ts) = Ok w') /\
    q_at_most frac n 1 (kf_x (w_kf w')) X /\ q_at_most frac n n (kf_P (w_kf w')) M.
Proof.
  intros c bits frac Hf n m f k rho beta U q qu X M Hn Hm HS HK cs obs ts Hts. pose proof (qsetup_level _ _ _ _ _ _ _ _ _ _ _ _ _ cs obs HS) as L.
  destruct HS as (H1 & H2 & H3 & H4 & H5 & H6 & H7 & H8 & H9).
  destruct (qturns_level c bits frac Hf n m (kf_A f) (kf_Q f) (ct_B k) (ct_Q k) rho beta U q qu X M Hn Hm H3 HK H4 H5 H6 H7 ts _ L Hts) as (w' & E & L').
  exists w'. split; [exact E|]. destruct L' as (k' & cs' & _ & _ & _ & _ & _ & _ & _ & I1 & I2). auto.
Qed.

Theorem fx_forever_error : forall (c : cfg) (bits frac : Z), (0 <= frac)%Z -> forall (n m : nat) (f : kalman Z) (k : control Z) (rho beta U q qu X M : Q),
  (1 <= n)%nat -> (1 <= m)%nat -> fx_setup c frac n m f k rho beta U q qu X M -> fx_keeps bits frac n m rho beta U q qu X M -> rho < 1 ->
  forall (cs : list (nat * control Z)) (obs : list (nat * observation Z)) (ts : list fx_turn), Forall (fx_turn_ok frac m U) ts ->
  let exact := q_ideal frac n m (qcell frac n (kf_A f)) (qcell frac n (kf_Q f)) (qcell frac m (ct_B k)) (qcell frac m (ct_Q k)) ts (fun i => qcell frac 1 (kf_x f) i 0, qcell frac n (kf_P f)) in
  exists w', (forall oc da, run c (fx_num bits frac oc da) n (mk_world f ((m, k) :: cs) obs) (fx_turns_ops ts) = Ok w') /\
    (forall i, (i < n)%nat -> Qabs (qcell frac 1 (kf_x (w_kf w')) i 0 - fst exact i) <= fx_turn_err frac n m / (1 - rho)) /\
    (forall i j, (i < n)%nat -> (j < n)%nat -> Qabs (qcell frac n (kf_P (w_kf w')) i j - snd exact i j) <= fx_turn_cov_err frac n m rho beta / (1 - rho * rho)).
Proof.
  intros c bits frac Hf n m f k rho beta U q qu X M Hn Hm HS HK Hr1 cs obs ts Hts exact. pose proof (qsetup_level _ _ _ _ _ _ _ _ _ _ _ _ _ cs obs HS) as L.
  destruct HS as (H1 & H2 & H3 & H4 & H5 & H6 & H7 & H8 & H9).
  pose proof (qrows_pos frac _ _ _ _ Hn H4) as Hr. pose proof (qrows_pos frac _ _ _ _ Hn H6) as Hb.
  pose proof (wpos frac Hf) as Hw. pose proof (qn_pos n) as HN. pose proof (qn_pos m) as HMm.
  assert (T1 : 0 <= fx_turn_err frac n m) by (unfold fx_turn_err; apply Qmult_le_0_compat; lra).
  assert (T2 : 0 <= fx_turn_cov_err frac n m rho beta).
  { unfold fx_turn_cov_err. apply Qmult_le_0_compat; [|lra]. assert (0 <= qn n * (1 + rho)) by (apply Qmult_le_0_compat; lra). assert (0 <= qn m * (1 + beta)) by (apply Qmult_le_0_compat; lra). lra. }
  assert (Hrr : rho * rho < 1) by nra.
  assert (D1 : 0 <= fx_turn_err frac n m / (1 - rho)) by (apply Qle_shift_div_l; lra). assert (D2 : 0 <= fx_turn_cov_err frac n m rho beta / (1 - rho * rho)) by (apply Qle_shift_div_l; lra).
  destruct (qturns_near c bits frac Hf n m (kf_A f) (kf_Q f) (ct_B k) (ct_Q k) rho beta U q qu X M Hn Hm H3 HK H4 H5 H6 H7 ts _ (fun i => qcell frac 1 (kf_x f) i 0, qcell frac n (kf_P f))
    (fx_turn_err frac n m / (1 - rho)) (fx_turn_cov_err frac n m rho beta / (1 - rho * rho)) L Hts Hr) as (w' & E & _ & R1 & R2).
  - intros i Hi. cbn [qst fst snd w_kf]. setoid_replace (qcell frac 1 (kf_x f) i 0 - qcell frac 1 (kf_x f) i 0) with 0 by ring. exact D1.
  - intros i j Hi Hj. cbn [qst fst snd w_kf]. setoid_replace (qcell frac n (kf_P f) i j - qcell frac n (kf_P f) i j) with 0 by ring. exact D2.
  - apply Qle_lteq. right. field. lra.
  - apply Qle_lteq. right. field. lra.
  - exists w'. auto.
Qed.
