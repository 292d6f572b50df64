(** * Checking by computation how a floating-point filter runs *)
From Coq Require Import ZArith QArith Qabs Qreals Reals Lra Psatz Lia List.
From Flocq Require Import Core BinarySingleNaN.
From Verif Require Import Prelude Spec SpecBits Matrix Filter SpecFilter Wp Kernels FilterTwo History HistGen HistTwo SpecGen FloatNum SpecFloats SpecReal SpecRange SpecStable SpecTurn FloatGen FloatFlocq FloatErr FloatPredict FloatFmt FloatTurn BuildSim FloatWit TurnProof TurnRun SpecFixedRange SpecFixedGain FixedCert LinPath FloatQ.
Import ListNotations SpecFloat.

(** ** iterating a turn that may fail *)
Section Iter.
Context {S K : Type}.
Variable turn : S -> option (S * K).
Fixpoint iter_path (T : nat) (g : S) : option (list (S * K) * S) :=
  match T with
  | O => Some ([], g)
  | Datatypes.S T' => match turn g with None => None | Some (g', k) => match iter_path T' g' with None => None | Some (l, e) => Some ((g, k) :: l, e) end end
  end.
Lemma iter_len T : forall g l e, iter_path T g = Some (l, e) -> length l = T.
Proof.
  induction T as [|T IH]; cbn; intros g l e E; [injection E as <- <-; reflexivity|]. destruct (turn g) as [(g' & k)|]; [|discriminate].
  destruct (iter_path T g') as [(l' & e')|] eqn:E'; [|discriminate]. injection E as <- <-. cbn. f_equal. eauto.
Qed.
Lemma iter_step T : forall g l e k0, iter_path T g = Some (l, e) -> fst (nth 0 l (e, k0)) = g /\ forall t, (t < T)%nat -> turn (fst (nth t l (e, k0))) = Some (fst (nth (Datatypes.S t) l (e, k0)), snd (nth t l (e, k0))).
Proof.
  induction T as [|T IH]; cbn [iter_path]; intros g l e k0 E.
  - injection E as <- <-. split; [reflexivity|lia].
  - destruct (turn g) as [(g' & k)|] eqn:EG; [|discriminate]. destruct (iter_path T g') as [(l' & e')|] eqn:E'; [|discriminate]. injection E as <- ->. destruct (IH g' l' e k0 E') as (H0 & HS).
    split; [reflexivity|]. intros [|t] Ht; cbn [nth fst snd]; [rewrite EG, H0; reflexivity|apply HS; lia].
Qed.
(** settled: the turn after the last gives the last state back *)
Lemma iter_for_ever T g l e k0 : iter_path T g = Some (l, e) -> turn e = Some (e, k0) -> forall t, turn (fst (nth t l (e, k0))) = Some (fst (nth (Datatypes.S t) l (e, k0)), snd (nth t l (e, k0))).
Proof.
  intros E Ee t. destruct (Nat.lt_ge_cases t T) as [L|L]; [apply (iter_step T g l e k0 E), L|]. pose proof (iter_len _ _ _ _ E) as LL. rewrite !nth_overflow by lia. exact Ee.
Qed.
End Iter.

(** ** staying within a box that each turn maps into itself *)
Section Contract.
Open Scope R_scope.
Variables (prec emax : Z) (n m : nat) (A H : nat -> nat -> R) (K : nat -> nat -> nat -> R) (x0 Zb X : nat -> R).
Definition r_closed (Kt : nat -> nat -> R) (i k : nat) : R := A i k - rsum m (fun j => Kt i j * rsum n (fun l => H j l * A l k)).
Lemma r_turn_affine Kt x z i : r_turn_state n m A H Kt x z i = rsum n (fun k => r_closed Kt i k * x k) + rsum m (fun j => Kt i j * z j).
Proof.
  unfold r_turn_state, r_corrected, r_predicted, r_closed.
  assert (E1 : rsum n (fun k => (A i k - rsum m (fun j => Kt i j * rsum n (fun l => H j l * A l k))) * x k) = rsum n (fun k => A i k * x k) - rsum n (fun k => rsum m (fun j => Kt i j * rsum n (fun l => H j l * A l k)) * x k)).
  { rewrite rsum_minus. apply rsum_ext. intros; ring. }
  rewrite E1. clear E1.
  assert (E2 : rsum n (fun k => rsum m (fun j => Kt i j * rsum n (fun l => H j l * A l k)) * x k) = rsum m (fun j => Kt i j * rsum n (fun l => H j l * rsum n (fun k => A l k * x k)))).
  { transitivity (rsum n (fun k => rsum m (fun j => Kt i j * rsum n (fun l => H j l * A l k) * x k))); [apply rsum_ext; intros; apply FloatForward.rsum_mult_r|].
    rewrite FloatForward.rsum_swap. apply rsum_ext. intros j Hj. rewrite <- rsum_scal.
    transitivity (rsum n (fun k => rsum n (fun l => Kt i j * (H j l * (A l k * x k))))).
    - apply rsum_ext. intros k Hk. rewrite <- rsum_scal, FloatForward.rsum_mult_r. apply rsum_ext. intros; ring.
    - rewrite FloatForward.rsum_swap. apply rsum_ext. intros l Hl. rewrite <- rsum_scal, <- rsum_scal. reflexivity. }
  rewrite E2. clear E2. unfold Rminus at 2. rewrite Rplus_assoc. f_equal.
  transitivity (rsum m (fun j => Kt i j * z j) - rsum m (fun j => Kt i j * rsum n (fun l => H j l * rsum n (fun k => A l k * x k)))); [rewrite rsum_minus; apply rsum_ext; intros; ring|ring].
Qed.
Hypothesis H0 : forall i, (i < n)%nat -> Rabs (x0 i) <= X i.
Hypothesis HC : forall t i, (i < n)%nat -> rsum n (fun k => Rabs (r_closed (K t) i k) * X k) + rsum m (fun j => Rabs (K t i j) * Zb j) + r_turn_rounding prec emax n m A H (K t) X Zb i <= X i.
Theorem contraction_stays : r_stays prec emax n m A H K x0 Zb X.
Proof.
  intros T x z X0 HZ F t. induction t as [|t IH]; intros i Ht Hi; [rewrite X0 by exact Hi; apply H0, Hi|].
  specialize (F t i ltac:(lia) Hi). rewrite r_turn_affine in F. specialize (HC t i Hi).
  pose proof (rdot_abs n (fun k => r_closed (K t) i k) (x t) X (fun k Hk => IH k ltac:(lia) Hk)) as B1. cbv beta in B1.
  pose proof (rdot_abs m (fun j => K t i j) (z t) Zb (fun j Hj => HZ t j ltac:(lia) Hj)) as B2. cbv beta in B2.
  apply Rabs_le_inv in B1, B2, F. apply Rabs_le. split; lra.
Qed.
End Contract.

(** the reference turn, in the smallest configuration *)
Definition fref_turn (prec emax : Z) (sz : bool) (n m : nat) (pr : cfg -> kalman spec_float -> res (kalman spec_float)) (o : observation spec_float) (g : kalman spec_float) : option (kalman spec_float * list spec_float) :=
  match pr tiny g with
  | Ok g1 => match correct tiny (sf_num prec emax sz) n m o g1 with Ok (r', g') => Some (g', ob_K r') | Panic _ => None end
  | Panic _ => None
  end.
Lemma fref_turn_ok c prec emax sz n m pr o g g' K : (255 <= usize_max c)%nat -> (forall f r, pr tiny f = Ok r -> pr c f = Ok r) -> fref_turn prec emax sz n m pr o g = Some (g', K) ->
  exists g1 o', pr c g = Ok g1 /\ correct c (sf_num prec emax sz) n m o g1 = Ok (o', g') /\ ob_K o' = K.
Proof.
  intros Hc HP E. unfold fref_turn in E. destruct (pr tiny g) as [g1|] eqn:E1; [|discriminate]. destruct (correct tiny (sf_num prec emax sz) n m o g1) as [(r' & g2)|] eqn:E2; [|discriminate].
  injection E as <- <-. exists g1, r'. split; [apply HP, E1|]. split; [apply (correct_tiny c Hc), E2|reflexivity].
Qed.
Definition with_x0 (f : kalman spec_float) (n : nat) : kalman spec_float := mk_kalman (kf_A f) (repeat (S754_zero false) n) (kf_P f) (kf_Q f) (kf_px f) (kf_tP f).
Lemma with_x0_cov c n f : kf_valid c n f -> kf_cov c n f (with_x0 f n).
Proof.
  intros Vf. pose proof Vf as (V1 & V2 & V3 & V4 & V5 & V6). assert (VX : valid c n 1 (repeat (S754_zero false) n)). { destruct V2 as (L & F). split; [rewrite repeat_length; lia|]. red. red in F. rewrite repeat_length. lia. }
  split; [exact Vf|]. split; [unfold kf_valid, with_x0; cbn; tauto|]. cbn. repeat split; intros; reflexivity.
Qed.

Section Settled.
Variables (prec emax : Z) (sz : bool) (n m : nat) (f : kalman spec_float) (o : observation spec_float).
Notation NN := (sf_num prec emax sz).
Notation turn := (fref_turn prec emax sz n m (fun c => predict c NN n) o).
Variables (T0 : nat) (path : list (kalman spec_float * list spec_float)) (gE : kalman spec_float) (Kinf : list spec_float).
Hypothesis HP : iter_path turn T0 (with_x0 f n) = Some (path, gE).
Hypothesis HE : turn gE = Some (gE, Kinf).
Definition fgain (t : nat) : list spec_float := snd (nth t path (gE, Kinf)).
Definition fin_list (l : list spec_float) : bool := forallb sf_finite l.
Lemma fin_list_matrix R C l : length l = (R * C)%nat -> fin_list l = true -> fin_matrix R C l.
Proof.
  intros L F i j Hi Hj. assert (B : (i * C + j < length l)%nat) by nia. unfold cell. destruct (nth_error l (i * C + j)) as [v|] eqn:E; [|apply nth_error_None in E; lia].
  exists v. split; [reflexivity|]. unfold fin_list in F. rewrite forallb_forall in F. apply F. eapply nth_error_In, E.
Qed.
Hypothesis HK : forallb (fun K => (length K =? n * m)%nat && fin_list K) (Kinf :: map snd path) = true.
Lemma fgain_in t : In (fgain t) (Kinf :: map snd path).
Proof.
  unfold fgain. destruct (Nat.lt_ge_cases t (length path)) as [L|L]; [right; apply in_map, nth_In, L|left; rewrite nth_overflow by exact L; reflexivity].
Qed.
Lemma settled_gains c : (255 <= usize_max c)%nat -> kf_valid c n f -> ob_valid c n m o -> fl_gains c prec emax sz n m f o fgain.
Proof.
  intros Hc Vf Vo. exists (fun t => fst (nth t path (gE, Kinf))), (fun _ => o). split.
  - rewrite (proj1 (iter_step turn T0 _ _ _ Kinf HP)). apply with_x0_cov, Vf.
  - intros t. split; [split; [exact Vo|split; [exact Vo|repeat split; intros; reflexivity]]|].
    pose proof (iter_for_ever turn T0 _ _ _ Kinf HP HE t) as E. destruct (fref_turn_ok c prec emax sz n m _ o _ _ _ Hc (fun g r => predict_tiny c Hc NN n g r) E) as (g1 & r' & E1 & E2 & E3).
    exists g1, r'. split; [exact E1|]. split; [exact E2|]. split; [exact E3|]. rewrite forallb_forall in HK. specialize (HK _ (fgain_in t)). apply andb_prop in HK. destruct HK as (K1 & K2).
    apply fin_list_matrix; [apply Nat.eqb_eq, K1|exact K2].
Qed.
(** the box condition, checked in the rationals *)
Variables (Zl Xl : list Q).
Notation A := (qcl n (kf_A f)). Notation H := (qcl n (ob_H o)).
Open Scope Q_scope.
Definition box_ok (K : list spec_float) : bool :=
  fq_room prec emax n m A H (qcl m K) (at_ Xl) (at_ Zl) &&
  all_lt n (fun i => Qle_bool (qsum n (fun k => Qabs (closed n m A H (qcl m K) i k) * at_ Xl k) + qsum m (fun j => Qabs (qcl m K i j) * at_ Zl j) + fq_turn_rounding prec emax n m A H (qcl m K) (at_ Xl) (at_ Zl) i) (at_ Xl i)).
Close Scope Q_scope.
Hypothesis HB : forallb box_ok (Kinf :: map snd path) = true.
Hypothesis Hx0 : all_lt n (fun i => Qle_bool (Qabs (qcl 1 (kf_x f) i 0)) (at_ Xl i)) = true.
Notation rv l := (fun i => Q2R (at_ l i)).
Lemma settled_room t : r_turn_room prec emax n m (rcell n (kf_A f)) (rcell n (ob_H o)) (rcell m (fgain t)) (rv Xl) (rv Zl).
Proof.
  rewrite forallb_forall in HB. specialize (HB _ (fgain_in t)). apply andb_prop in HB. destruct HB as (B1 & _). apply fq_room_ok in B1. rewrite !rcell_f in B1. exact B1.
Qed.
Lemma settled_stays : r_stays prec emax n m (rcell n (kf_A f)) (rcell n (ob_H o)) (fun t => rcell m (fgain t)) (fun i => rcell 1 (kf_x f) i 0) (rv Zl) (rv Xl).
Proof.
  apply contraction_stays.
  - intros i Hi. pose proof (all_lt_spec _ _ Hx0 i Hi) as E. cbv beta in E. apply Qle_bool_iff, Qle_Rle in E. rewrite Q2R_abs, Q2R_qcl in E. exact E.
  - intros t i Hi. rewrite forallb_forall in HB. specialize (HB _ (fgain_in t)). apply andb_prop in HB. destruct HB as (_ & B2).
    pose proof (all_lt_spec _ _ B2 i Hi) as E. cbv beta in E. apply Qle_bool_iff, Qle_Rle in E. rewrite !Q2R_plus, tr_q, !rcell_f, (Q2R_dot n (fun k => closed n m A H (qcl m (fgain t)) i k)), (Q2R_dot m (fun j => qcl m (fgain t) i j)) in E.
    eapply Rle_trans; [|exact E]. apply Rplus_le_compat_r. apply Rplus_le_compat; apply Req_le; apply rsum_ext; intros k Hk; [|rewrite Q2R_qcl; reflexivity]. f_equal. f_equal.
    unfold r_closed, closed. rewrite Q2R_minus, Q2R_qcl, Q2R_qsum. f_equal. apply rsum_ext. intros j Hj. rewrite Q2R_mult, Q2R_qcl, Q2R_qsum. f_equal. apply rsum_ext. intros l Hl. rewrite Q2R_mult, !Q2R_qcl. reflexivity.
Qed.
End Settled.
