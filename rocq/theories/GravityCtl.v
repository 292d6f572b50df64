(** * The loop of examples/gravity.rs: predict, a control that is zero, a reading, correct *)
From Coq Require Import ZArith QArith Qabs Qreals Reals Lra Psatz Lia List.
From Flocq Require Import Core BinarySingleNaN.
From Verif Require Import Prelude Spec SpecBits Matrix Filter SpecFilter SpecParam Param Wp Kernels FilterTwo History HistGen HistTwo SpecGen FloatNum SpecFloats SpecReal SpecRange SpecStable SpecTurn FloatGen FloatFlocq FloatOps FloatErr FloatPredict FloatFmt FloatUpdate FloatRange FloatTurn FloatSelect BitsProof BuildSim FloatWit TurnProof TurnRun SpecFixedRange SpecFixedGain FixedCert LinPath FloatQ FloatCert FloatTrack GravityFloat GravityLoop.
Import ListNotations SpecFloat.
Open Scope R_scope.

(** adding a finite number times zero changes no value *)
Lemma mul_zero prec emax b z : sf_finite b = true -> exists z', SFmul prec emax b (S754_zero z) = S754_zero z'.
Proof. intros F. destruct b; try discriminate F; cbn; eauto. Qed.
Lemma add_zero prec emax v z : sf_finite v = true -> sf_finite (SFadd prec emax v (S754_zero z)) = true /\ val (SFadd prec emax v (S754_zero z)) = val v.
Proof. intros F. destruct v as [[] | | |]; try discriminate F; destruct z; cbn; split; reflexivity. Qed.

Section Ctl.
Variables (c : cfg) (prec emax : Z) (sz : bool).
Hypothesis HF : format_ok prec emax.
Notation NN := (sf_num prec emax sz).
Variables (n : nat).
Hypothesis Hn : (1 <= n)%nat.
Definition zero_u (k : control spec_float) : Prop := exists z, ct_u k = [S754_zero z].
Definition ct_inv (k0 k : control spec_float) : Prop := ct_cov c n 1 k k0 /\ ct_all_format prec emax k /\ zero_u k /\ fin_matrix n 1 (ct_B k).
Lemma control_fmt m k k' f f' : kf_all_format prec emax f -> ct_all_format prec emax k -> control_ c NN n m k f = Ok (k', f') -> kf_all_format prec emax f' /\ ct_all_format prec emax k'.
Proof.
  intros ((FA & Fx & FPf & FQ) & Fpx & FtP) ((G1 & G2 & G3) & FBQ) E. assert (H : SpecParam.kf_rel (same_fmt prec emax) f f) by (repeat split; apply fmt_list; assumption).
  assert (HC : SpecParam.ct_rel (same_fmt prec emax) k k) by (repeat split; apply fmt_list; assumption).
  pose proof (p_control False (same_fmt prec emax) c NN NN (same_fmt_num prec emax sz HF) n m k k f f HC H) as HR. rewrite E in HR.
  destruct HR as [HR|HR]; [destruct HR as ([] & _)|]. destruct HR as (HCt & HK). cbn [fst snd] in HCt, HK. destruct HK as (K1 & K2 & K3 & K4 & K5 & K6). destruct HCt as (C1 & C2 & C3 & C4).
  split; [split; [|split]; [repeat split|..]|split; [repeat split|]]; eapply fmt_list2; eassumption.
Qed.
Lemma control_step k0 k k0' f f1 g1 g2 : ct_inv k0 k -> pred_step c prec emax n f f1 g1 -> control_ c NN n 1 k0 g1 = Ok (k0', g2) ->
  exists k' f2, control_ c NN n 1 k f1 = Ok (k', f2) /\ ct_inv k0 k' /\ pred_step c prec emax n f f2 g2.
Proof.
  intros (Ck & Fk & (z & Zu) & IB) (C1 & F1 & EA & EL & SP) Eg. pose proof Ck as (Vk & Vk0 & SB & SQ). pose proof C1 as (V1 & _).
  assert (E : exists k' f2, control_ c NN n 1 k f1 = Ok (k', f2)).
  { pose proof (control_wp c NN n 1 k f1 Vk V1) as H. destruct (control_ c NN n 1 k f1) as [(k' & f')|e]; [eauto|]. cbn in H. destruct H as (_ & H). destruct (H (sf_never_panics prec emax sz)). }
  destruct E as (k' & f2 & E). exists k', f2. split; [exact E|].
  pose proof (control_wp c NN n 1 k f1 Vk V1) as W. rewrite E in W. cbn [wp] in W. destruct W as (Vk' & (MB & Mu & MQ) & Vf2 & (MA & _) & ((LX & _) & _)).
  pose proof (control_cov c NN n 1 k k0 f1 g1 Ck C1) as R. rewrite E, Eg in R. cbn [rok fst snd] in R. destruct R as (R1 & R2).
  destruct (control_fmt 1 k k' f1 f2 F1 Fk E) as (F2 & Fk').
  destruct (control_bits c NN n 1 k k' f1 f2 Hn (le_n 1) V1 Vk E) as (BX & _).
  assert (CX : forall i v, (i < n)%nat -> cell 1 (kf_x f1) i 0 = Some v -> sf_finite v = true -> exists v', cell 1 (kf_x f2) i 0 = Some v' /\ sf_finite v' = true /\ val v' = val v).
  { intros i v Hi Ev Fv. specialize (BX i Hi). destruct (IB i 0%nat Hi (le_n 1)) as (b & Eb & Fb). unfold b_prodv in BX. cbn [dot1] in BX. rewrite Ev, Eb, Zu in BX. cbn [cell nth_error b_add obind Nat.mul Nat.add] in BX.
    change (cell 1 [S754_zero z] 0 0) with (Some (S754_zero z)) in BX. cbn [obind] in BX. unfold o_mul, o_add in BX. change (n_mul NN b (S754_zero z)) with (Ok (SFmul prec emax b (S754_zero z))) in BX. cbn in BX.
    destruct (mul_zero prec emax b z Fb) as (z' & Ez). rewrite Ez in BX. exists (SFadd prec emax v (S754_zero z')). split; [exact BX|]. apply add_zero, Fv. }
  split.
  - split; [|split; [exact Fk'|split; [exists z; congruence|rewrite MB; exact IB]]]. split; [exact Vk'|]. split; [exact Vk0|]. rewrite MB, MQ. split; assumption.
  - split; [exact R2|]. split; [exact F2|]. split; [congruence|]. split; [congruence|].
    intros X IA Ix HR. destruct (SP X IA Ix HR) as ((S1 & S2) & S3).
    assert (V : forall i, (i < n)%nat -> rcell 1 (kf_x f2) i 0 = rcell 1 (kf_x f1) i 0).
    { intros i Hi. destruct (S1 i 0%nat Hi (le_n 1)) as (v & Ev & Fv). destruct (CX i v Hi Ev Fv) as (v' & Ev' & _ & VV). unfold rcell. rewrite Ev, Ev'. exact VV. }
    split; [split|].
    + intros i j Hi Hj. assert (j = 0%nat) by lia. subst j. destruct (S1 i 0%nat Hi (le_n 1)) as (v & Ev & Fv). destruct (CX i v Hi Ev Fv) as (v' & Ev' & Fv' & _). exists v'. split; assumption.
    + intros i Hi. rewrite (V i Hi). apply S2, Hi.
    + intros i Hi. rewrite (V i Hi). apply S3, Hi.
Qed.

(** the loop *)
Variables (s : nat -> nat) (f0 : kalman spec_float) (k0 : control spec_float) (o0 : observation spec_float).
Hypotheses (Vo0 : ob_valid c n 1 o0) (IA : fin_matrix n n (kf_A f0)) (IH : fin_matrix 1 n (ob_H o0)) (HS : selects n 1 (rcell n (ob_H o0)) s).
Variables (T : nat) (G : nat -> kalman spec_float) (Ks : nat -> list spec_float).
Hypothesis HG : forall t, (t < T)%nat -> exists g1 k' g2 o', predict c NN n (G t) = Ok g1 /\ control_ c NN n 1 k0 g1 = Ok (k', g2) /\ correct c NN n 1 o0 g2 = Ok (o', G (S t)) /\ ob_K o' = Ks t /\ fin_matrix n 1 (Ks t).
Hypothesis H0 : kf_inv c prec emax n f0 (G 0%nat) f0.
Hypothesis Hk : ct_inv k0 k0.
Hypothesis Ho : ob_inv c prec emax n o0 o0.
Variables (D E : list spec_float).
Hypotheses (LD : (T <= length D)%nat) (LE : (T <= length E)%nat) (FD : all_in_format prec emax D) (FE : all_in_format prec emax E).
Notation zero := (S754_zero false).
Definition ctl_body (t : nat) (st : kalman spec_float * control spec_float * observation spec_float) : res (kalman spec_float * control spec_float * observation spec_float) :=
  let '(f, k, o) := st in
  f <- predict c NN n f ;;
  r <- control_ c NN n 1 k f ;; let '(k, f) := r in
  v <- rd D t ;; e <- rd E t ;; m <- n_add NN v e ;;
  z <- index_set (ob_z o) 0 m ;;
  r <- correct c NN n 1 (put_z o z) f ;; let '(o, f) := r in
  Ok (f, k, o).
Notation fof := (fun st : kalman spec_float * control spec_float * observation spec_float => fst (fst st)).
Theorem ctl_loop : exists xs fo, for_up T 0 (f0, k0, o0) ctl_body = Ok fo /\ xs 0%nat = kf_x f0 /\ xs T = kf_x (fof fo) /\ length (xs T) = n /\ all_in_format prec emax (xs T) /\
  forall t, (t < T)%nat -> turn_fact prec emax n 1 s (kf_A f0) (ob_H o0) (xs t) (xs (S t)) (rdg prec emax D E t) (Ks t).
Proof.
  assert (hprec : Prec_gt_0 prec) by (destruct HF; red; lia). assert (hmax : Prec_lt_emax prec emax) by apply HF.
  destruct (loop_seq ctl_body (fun t st => kf_inv c prec emax n f0 (G t) (fof st) /\ ct_inv k0 (snd (fst st)) /\ ob_inv c prec emax n o0 (snd st))
    (fun t st st' => turn_fact prec emax n 1 s (kf_A f0) (ob_H o0) (kf_x (fof st)) (kf_x (fof st')) (rdg prec emax D E t) (Ks t)) T 0 (f0, k0, o0)) as (st & S0 & SP & SE & SI & _).
  - repeat split; first [apply H0 | apply Hk | apply Ho].
  - intros t ((f, k), o) Ht (If & Ik & Io). cbn [fst snd] in If, Ik, Io. destruct (HG t ltac:(lia)) as (g1 & k' & g2 & o' & P1 & P1' & P2 & P3 & P4). pose proof If as (Cf & Ff & _).
    destruct (predict_step c prec emax sz HF n f (G t) g1 Hn Cf Ff P1) as (f1 & E1 & PS). destruct (control_step k0 k k' f f1 g1 g2 Ik PS P1') as (k2 & f2 & E2 & Ik2 & PS2).
    assert (FV : in_format prec emax (SFadd prec emax (nth t D zero) (nth t E zero))) by (apply (vf_add prec emax hprec hmax); apply nth_fmt; assumption).
    destruct (prog_turn c prec emax sz HF n s f0 o0 Hn Vo0 IA IH HS (G t) g2 (G (S t)) o' (Ks t) f f2 o _ If PS2 Io FV P2 P3 P4) as (o3 & f3 & E3 & I1 & I2 & TF).
    exists (f3, k2, o3). split; [|split; [split; [exact I1|split; [exact Ik2|exact I2]]|exact TF]]. unfold ctl_body. rewrite E1. cbn [bind]. rewrite E2. cbn [bind]. unfold rd.
    rewrite (nth_error_nth' D zero) by lia. rewrite (nth_error_nth' E zero) by lia. cbn [bind]. change (n_add NN (nth t D zero) (nth t E zero)) with (Ok (SFadd prec emax (nth t D zero) (nth t E zero))). cbn [bind].
    destruct Io as (_ & _ & _ & _ & LZ). rewrite set_one by exact LZ. cbn [bind]. rewrite E3. reflexivity.
  - exists (fun t => kf_x (fof (st t))), (st T). split; [exact SE|]. split; [rewrite S0; reflexivity|]. split; [reflexivity|].
    cbn [fst] in SI. destruct SI as (_ & ((_ & F & _) & _) & _ & L). split; [exact L|]. split; [exact F|]. exact SP.
Qed.
End Ctl.
