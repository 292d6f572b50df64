(** * Two programs that differ only in their data *)
From Coq Require Import ZArith Lia List Floats.SpecFloat.
From Verif Require Import Prelude Numeric FloatNum FixedNum Matrix Filter Extended History Spec SpecFilter SpecGen SpecBits SpecFloats Wp Kernels FilterGen FilterTwo HistGen HistTwo FixedGain BitsProof FloatGen SpecRest Rest SpecMirror.
Import ListNotations.
Local Open Scope nat_scope.

Section Gen.
Context {T : Type} (c : cfg) (N : num T) (R : T -> T -> Prop).
Hypothesis Laws : data_laws N R.
Notation vec := (same_vector R).

Lemma dot1_rel K f g1 g2 v1 v2 : (forall k b1 b2, k < K -> g1 k = Some b1 -> g2 k = Some b2 -> R b1 b2) ->
  dot1 N K f g1 = Some v1 -> dot1 N K f g2 = Some v2 -> R v1 v2.
Proof.
  destruct Laws as (Lm & La & _). intros Hg. revert v1 v2. induction K as [|[|K] IH]; intros v1 v2 H1 H2; [discriminate| |].
  - cbn [dot1] in H1, H2. apply obind_inv in H1 as (a & Ea & H1). rewrite Ea in H2. cbn in H2. apply obind_inv in H1 as (b & Eb & H1). apply obind_inv in H2 as (b2 & Eb2 & H2).
    exact (Lm a b b2 _ _ (Hg 0 b b2 ltac:(lia) Eb Eb2) H1 H2).
  - change (dot1 N (S (S K)) f g1) with (obind (dot1 N (S K) f g1) (fun acc => obind (f (S K)) (fun u => obind (g1 (S K)) (fun v => obind (o_mul N u v) (fun p => o_add N acc p))))) in H1.
    change (dot1 N (S (S K)) f g2) with (obind (dot1 N (S K) f g2) (fun acc => obind (f (S K)) (fun u => obind (g2 (S K)) (fun v => obind (o_mul N u v) (fun p => o_add N acc p))))) in H2.
    apply obind_inv in H1 as (acc & Eacc & H1). apply obind_inv in H1 as (a & Ea & H1). apply obind_inv in H1 as (b & Eb & H1). apply obind_inv in H1 as (p & Ep & H1).
    apply obind_inv in H2 as (acc2 & Eacc2 & H2). rewrite Ea in H2. cbn in H2. apply obind_inv in H2 as (b2 & Eb2 & H2). apply obind_inv in H2 as (p2 & Ep2 & H2).
    refine (La _ _ _ _ _ _ (IH _ acc acc2 Eacc Eacc2) (Lm a b b2 _ _ (Hg (S K) b b2 ltac:(lia) Eb Eb2) Ep Ep2) H1 H2).
    intros k q1 q2 Hk. apply Hg. lia.
Qed.
Lemma prodv_rel m K (A1 A2 V1 V2 : list T) i v1 v2 : i < m -> same_matrix m K A1 A2 -> vec K V1 V2 ->
  b_prodv N K (cell K A1) (cell 1 V1) i 0 = Some v1 -> b_prodv N K (cell K A2) (cell 1 V2) i 0 = Some v2 -> R v1 v2.
Proof.
  intros Hi HA HV E1 E2. unfold b_prodv in *. rewrite (dot1_ext N K (fun k => cell K A2 i k) (fun k => cell 1 V2 k 0) (fun k => cell K A1 i k) (fun k => cell 1 V2 k 0)) in E2.
  - eapply dot1_rel; [|exact E1|exact E2]. intros k b1 b2 Hk. apply HV. exact Hk.
  - intros k Hk. symmetry. apply (same_cell m K); auto.
  - reflexivity.
Qed.

Lemma add_rel n (x1 x2 x1' x2' : list T) (d1 d2 : nat -> option T) : vec n x1 x2 -> (forall i v1 v2, i < n -> d1 i = Some v1 -> d2 i = Some v2 -> R v1 v2) ->
  (forall i, i < n -> cell 1 x1' i 0 = b_add N (cell 1 x1 i 0) (d1 i)) -> (forall i, i < n -> cell 1 x2' i 0 = b_add N (cell 1 x2 i 0) (d2 i)) -> vec n x1' x2'.
Proof.
  destruct Laws as (_ & La & _). intros Hx Hd H1 H2 i v1 v2 Hi E1 E2. rewrite H1 in E1 by exact Hi. rewrite H2 in E2 by exact Hi.
  apply obind_inv in E1 as (a1 & Ea1 & E1). apply obind_inv in E1 as (b1 & Eb1 & E1). apply obind_inv in E2 as (a2 & Ea2 & E2). apply obind_inv in E2 as (b2 & Eb2 & E2).
  exact (La _ _ _ _ _ _ (Hx i a1 a2 Hi Ea1 Ea2) (Hd i b1 b2 Hi Eb1 Eb2) E1 E2).
Qed.
Lemma sub_rel n (x1 x2 x1' x2' : list T) (d1 d2 : nat -> option T) : vec n x1 x2 -> (forall i v1 v2, i < n -> d1 i = Some v1 -> d2 i = Some v2 -> R v1 v2) ->
  (forall i, i < n -> cell 1 x1' i 0 = b_sub N (cell 1 x1 i 0) (d1 i)) -> (forall i, i < n -> cell 1 x2' i 0 = b_sub N (cell 1 x2 i 0) (d2 i)) -> vec n x1' x2'.
Proof.
  destruct Laws as (_ & _ & Ls). intros Hx Hd H1 H2 i v1 v2 Hi E1 E2. rewrite H1 in E1 by exact Hi. rewrite H2 in E2 by exact Hi.
  apply obind_inv in E1 as (a1 & Ea1 & E1). apply obind_inv in E1 as (b1 & Eb1 & E1). apply obind_inv in E2 as (a2 & Ea2 & E2). apply obind_inv in E2 as (b2 & Eb2 & E2).
  exact (Ls _ _ _ _ _ _ (Hx i a1 a2 Hi Ea1 Ea2) (Hd i b1 b2 Hi Eb1 Eb2) E1 E2).
Qed.

(** ** one call *)
Lemma predict_data n f1 f2 f1' f2' : 1 <= n -> kf_cov c n f1 f2 -> vec n (kf_x f1) (kf_x f2) -> predict c N n f1 = Ok f1' -> predict c N n f2 = Ok f2' -> vec n (kf_x f1') (kf_x f2').
Proof.
  intros Hn (V1 & V2 & SA & _) Hx E1 E2. destruct (predict_bits c N n f1 f1' Hn V1 E1) as [H1 _]. destruct (predict_bits c N n f2 f2' Hn V2 E2) as [H2 _].
  intros i v1 v2 Hi Ev1 Ev2. rewrite H1 in Ev1 by exact Hi. rewrite H2 in Ev2 by exact Hi. exact (prodv_rel n n _ _ _ _ i v1 v2 Hi SA Hx Ev1 Ev2).
Qed.
Lemma predict_tuned_data n lam f1 f2 f1' f2' : 1 <= n -> kf_cov c n f1 f2 -> vec n (kf_x f1) (kf_x f2) -> predict_tuned c N n lam f1 = Ok f1' -> predict_tuned c N n lam f2 = Ok f2' -> vec n (kf_x f1') (kf_x f2').
Proof.
  intros Hn (V1 & V2 & SA & _) Hx E1 E2. destruct (predict_tuned_bits c N n lam f1 f1' Hn V1 E1) as [H1 _]. destruct (predict_tuned_bits c N n lam f2 f2' Hn V2 E2) as [H2 _].
  intros i v1 v2 Hi Ev1 Ev2. rewrite H1 in Ev1 by exact Hi. rewrite H2 in Ev2 by exact Hi. exact (prodv_rel n n _ _ _ _ i v1 v2 Hi SA Hx Ev1 Ev2).
Qed.
Lemma out_valid n m h (x y : list T) : closure_ok c N m n h -> valid c n 1 x -> valid c m 1 y -> forall out, h x y = Ok out -> valid c m 1 out.
Proof. intros Hh Vx Vy out Eo. pose proof (Hh _ _ Vx Vy) as W. rewrite Eo in W. exact W. Qed.
Lemma predict_nl_data n h1 h2 f1 f2 f1' f2' : 1 <= n -> kf_cov c n f1 f2 -> vec n (kf_x f1) (kf_x f2) -> closure_ok c N n n h1 -> closure_ok c N n n h2 -> closures_related R n n h1 h2 ->
  predict_nonlinear c N n h1 f1 = Ok f1' -> predict_nonlinear c N n h2 f2 = Ok f2' -> vec n (kf_x f1') (kf_x f2').
Proof.
  intros Hn (V1 & V2 & _) Hx S1 S2 Hh E1 E2. pose proof V1 as (_ & Vx1 & _ & _ & Vp1 & _). pose proof V2 as (_ & Vx2 & _ & _ & Vp2 & _).
  destruct (predict_nl_bits c N n h1 f1 f1' Hn V1 (out_valid n n h1 _ _ S1 Vx1 Vp1) E1) as ((r1 & Er1 & H1) & _).
  destruct (predict_nl_bits c N n h2 f2 f2' Hn V2 (out_valid n n h2 _ _ S2 Vx2 Vp2) E2) as ((r2 & Er2 & H2) & _).
  intros i v1 v2 Hi Ev1 Ev2. rewrite H1 in Ev1 by exact Hi. rewrite H2 in Ev2 by exact Hi. exact (Hh _ _ _ _ _ _ Hx Er1 Er2 i v1 v2 Hi Ev1 Ev2).
Qed.
Lemma predict_tuned_nl_data n lam h1 h2 f1 f2 f1' f2' : 1 <= n -> kf_cov c n f1 f2 -> vec n (kf_x f1) (kf_x f2) -> closure_ok c N n n h1 -> closure_ok c N n n h2 -> closures_related R n n h1 h2 ->
  predict_tuned_nonlinear c N n lam h1 f1 = Ok f1' -> predict_tuned_nonlinear c N n lam h2 f2 = Ok f2' -> vec n (kf_x f1') (kf_x f2').
Proof.
  intros Hn (V1 & V2 & _) Hx S1 S2 Hh E1 E2. pose proof V1 as (_ & Vx1 & _ & _ & Vp1 & _). pose proof V2 as (_ & Vx2 & _ & _ & Vp2 & _).
  destruct (predict_tuned_nl_bits c N n lam h1 f1 f1' Hn V1 (out_valid n n h1 _ _ S1 Vx1 Vp1) E1) as ((r1 & Er1 & H1) & _).
  destruct (predict_tuned_nl_bits c N n lam h2 f2 f2' Hn V2 (out_valid n n h2 _ _ S2 Vx2 Vp2) E2) as ((r2 & Er2 & H2) & _).
  intros i v1 v2 Hi Ev1 Ev2. rewrite H1 in Ev1 by exact Hi. rewrite H2 in Ev2 by exact Hi. exact (Hh _ _ _ _ _ _ Hx Er1 Er2 i v1 v2 Hi Ev1 Ev2).
Qed.
Lemma control_data n m k1 k2 k1' k2' f1 f2 f1' f2' : 1 <= n -> kf_cov c n f1 f2 -> ct_cov c n m k1 k2 -> vec n (kf_x f1) (kf_x f2) -> vec m (ct_u k1) (ct_u k2) ->
  control_ c N n m k1 f1 = Ok (k1', f1') -> control_ c N n m k2 f2 = Ok (k2', f2') -> vec n (kf_x f1') (kf_x f2').
Proof.
  intros Hn (V1 & V2 & _) (W1 & W2 & SB & _) Hx Hu E1 E2. destruct (Nat.eq_dec m 0) as [->|Hm].
  - pose proof W1 as (_ & Vu1 & _). pose proof W2 as (_ & Vu2 & _). unfold control_, apply_control in E1, E2. rewrite (is_empty_valid c _ _ _ Vu1) in E1. rewrite (is_empty_valid c _ _ _ Vu2) in E2.
    cbn in E1, E2. injection E1 as <- <-. injection E2 as <- <-. exact Hx.
  - destruct (control_bits c N n m k1 k1' f1 f1' Hn ltac:(lia) V1 W1 E1) as [H1 _]. destruct (control_bits c N n m k2 k2' f2 f2' Hn ltac:(lia) V2 W2 E2) as [H2 _].
    refine (add_rel n _ _ _ _ _ _ Hx _ H1 H2). intros i v1 v2 Hi. exact (prodv_rel n m _ _ _ _ i v1 v2 Hi SB Hu).
Qed.
Lemma correct_data n m o1 o2 o1' o2' f1 f2 f1' f2' : 1 <= n -> 1 <= m -> kf_cov c n f1 f2 -> ob_cov c n m o1 o2 -> vec n (kf_x f1) (kf_x f2) -> vec m (ob_z o1) (ob_z o2) ->
  correct c N n m o1 f1 = Ok (o1', f1') -> correct c N n m o2 f2 = Ok (o2', f2') -> vec m (ob_y o1') (ob_y o2') /\ vec n (kf_x f1') (kf_x f2').
Proof.
  intros Hn Hm Cf Co Hx Hz E1 E2. pose proof (correct_cov c N n m o1 o2 f1 f2 Hn Hm Co Cf) as CC. rewrite E1, E2 in CC. destruct CC as (_ & _ & SK). cbn [fst snd] in SK.
  destruct Cf as (V1 & V2 & _). destruct Co as (W1 & W2 & SH & _).
  destruct (correct_bits c N n m o1 o1' f1 f1' Hn Hm W1 V1 E1) as (Y1 & _ & _ & _ & _ & _ & X1 & _).
  destruct (correct_bits c N n m o2 o2' f2 f2' Hn Hm W2 V2 E2) as (Y2 & _ & _ & _ & _ & _ & X2 & _).
  assert (Hy : vec m (ob_y o1') (ob_y o2')). { refine (sub_rel m _ _ _ _ _ _ Hz _ Y1 Y2). intros i v1 v2 Hi. exact (prodv_rel m n _ _ _ _ i v1 v2 Hi SH Hx). }
  split; [exact Hy|]. refine (add_rel n _ _ _ _ _ _ Hx _ X1 X2). intros i v1 v2 Hi. exact (prodv_rel n m _ _ _ _ i v1 v2 Hi SK Hy).
Qed.
Lemma correct_nl_data n m h1 h2 o1 o2 o1' o2' f1 f2 f1' f2' : 1 <= n -> 1 <= m -> kf_cov c n f1 f2 -> ob_cov c n m o1 o2 -> vec n (kf_x f1) (kf_x f2) -> vec m (ob_z o1) (ob_z o2) ->
  closure_ok c N m n h1 -> closure_ok c N m n h2 -> closures_related R n m h1 h2 ->
  correct_nonlinear c N n m h1 o1 f1 = Ok (o1', f1') -> correct_nonlinear c N n m h2 o2 f2 = Ok (o2', f2') -> vec m (ob_y o1') (ob_y o2') /\ vec n (kf_x f1') (kf_x f2').
Proof.
  intros Hn Hm Cf Co Hx Hz S1 S2 Hh E1 E2. pose proof (correct_nl_cov c N n m h1 h2 o1 o2 f1 f2 Hn Hm S1 S2 Co Cf) as CC. rewrite E1, E2 in CC. destruct CC as (_ & _ & SK). cbn [fst snd] in SK.
  destruct Cf as (V1 & V2 & _). destruct Co as (W1 & W2 & SH & _). pose proof V1 as (_ & Vx1 & _). pose proof V2 as (_ & Vx2 & _). pose proof W1 as (_ & _ & _ & Vy1 & _). pose proof W2 as (_ & _ & _ & Vy2 & _).
  destruct (correct_nl_bits c N n m h1 o1 o1' f1 f1' Hn Hm W1 V1 (out_valid n m h1 _ _ S1 Vx1 Vy1) E1) as ((r1 & Er1 & Y1) & _ & _ & _ & _ & _ & X1 & _).
  destruct (correct_nl_bits c N n m h2 o2 o2' f2 f2' Hn Hm W2 V2 (out_valid n m h2 _ _ S2 Vx2 Vy2) E2) as ((r2 & Er2 & Y2) & _ & _ & _ & _ & _ & X2 & _).
  assert (Hy : vec m (ob_y o1') (ob_y o2')). { refine (sub_rel m _ _ _ _ _ _ Hz _ Y1 Y2). intros i v1 v2 Hi Ev1 Ev2. exact (Hh _ _ _ _ _ _ Hx Er1 Er2 i v1 v2 Hi Ev1 Ev2). }
  split; [exact Hy|]. refine (add_rel n _ _ _ _ _ _ Hx _ X1 X2). intros i v1 v2 Hi. exact (prodv_rel n m _ _ _ _ i v1 v2 Hi SK Hy).
Qed.

(** ** histories *)
Lemma put_rel m (x1 x2 l1 l2 : list T) : valid c m 1 x1 -> valid c m 1 x2 -> vec m x1 x2 -> Forall2 R l1 l2 -> vec m (put x1 l1) (put x2 l2).
Proof.
  intros [V1 _] [V2 _] Hx Hl i v1 v2 Hi E1 E2. unfold cell in E1, E2. rewrite nth_put in E1 by lia. rewrite nth_put in E2 by lia. replace (length l2) with (length l1) in E2 by (clear -Hl; induction Hl; cbn; congruence).
  destruct (Nat.ltb (i * 1 + 0) (length l1)); [|exact (Hx i v1 v2 Hi E1 E2)].
  pose proof (HistGen.Forall2_nth _ _ _ (i * 1 + 0) Hl) as F. rewrite E1, E2 in F. exact F.
Qed.
Lemma op_related_cov n dims o1 o2 : op_related R n dims o1 o2 -> op_cov o1 o2.
Proof. destruct o1, o2; cbn; intros H; try exact H; try exact I; try contradiction; try discriminate H; try (destruct H as [H _]; exact H). Qed.
Lemma cov_ok n (w1 w2 : world T) : 1 <= n -> Forall (fun m => 1 <= m) (ob_dims w1) -> world_cov c n w1 w2 -> world_ok c n w1 /\ world_ok c n w2 /\ ob_dims w2 = ob_dims w1.
Proof.
  intros Hn Hd ((V1 & V2 & _) & HC & HO).
  assert (D : ob_dims w2 = ob_dims w1). { unfold ob_dims. clear -HO. induction HO as [|a b l l' [H _] _ IH]; cbn; [reflexivity|]. rewrite IH, H. reflexivity. }
  split; [|split; [|exact D]].
  - split; [exact Hn|]. split; [|exact Hd]. split; [exact V1|]. split.
    + clear -HC. induction HC as [|a b l l' [_ (H & _)] _ IH]; constructor; auto.
    + clear -HO. induction HO as [|a b l l' [_ (H & _)] _ IH]; constructor; auto.
  - split; [exact Hn|]. split; [|rewrite D; exact Hd]. split; [exact V2|]. split.
    + clear -HC. induction HC as [|a b l l' [E (_ & H & _)] _ IH]; constructor; auto. rewrite <- E. exact H.
    + clear -HO. induction HO as [|a b l l' [E (_ & H & _)] _ IH]; constructor; auto. rewrite <- E. exact H.
Qed.
Lemma data_kept n (w1 w2 w1' w2' : world T) : world_same_model n w1 w1' -> world_same_model n w2 w2' -> data_related R n w1 w2 ->
  vec n (kf_x (w_kf w1')) (kf_x (w_kf w2')) -> data_related R n w1' w2'.
Proof.
  intros (_ & _ & C1 & O1) (_ & _ & C2 & O2) (_ & HC & HO) Hx. split; [exact Hx|]. split.
  - clear -C1 C2 HC. revert C1 C2. generalize (w_ct w1') (w_ct w2'). induction HC as [|a b l l' H _ IH]; intros l1 l2 C1 C2.
    + inversion C1; inversion C2; subst. constructor.
    + inversion C1 as [|? a' ? ? [Ea (_ & Eu & _)]]; inversion C2 as [|? b' ? ? [Eb (_ & Eu' & _)]]; subst. constructor; [|apply IH; assumption]. rewrite <- Ea, Eu, Eu'. exact H.
  - clear -O1 O2 HO. revert O1 O2. generalize (w_ob w1') (w_ob w2'). induction HO as [|a b l l' H _ IH]; intros l1 l2 C1 C2.
    + inversion C1; inversion C2; subst. constructor.
    + inversion C1 as [|? a' ? ? [Ea (_ & Eu & _)]]; inversion C2 as [|? b' ? ? [Eb (_ & Eu' & _)]]; subst. constructor; [|apply IH; assumption]. rewrite <- Ea, Eu, Eu'. exact H.
Qed.
Ltac ob H l E := match type of H with bind ?m _ = Ok _ => destruct m as [l|] eqn:E; cbn [bind] in H; [|discriminate] end.
Lemma step_data n (w1 w2 w1' w2' : world T) o1 o2 : 1 <= n -> Forall (fun m => 1 <= m) (ob_dims w1) -> world_cov c n w1 w2 -> data_related R n w1 w2 ->
  op_related R n (ob_dims w1) o1 o2 -> op_safe c N n (ob_dims w1) o1 -> op_safe c N n (ob_dims w1) o2 ->
  step c N n w1 o1 = Ok w1' -> step c N n w2 o2 = Ok w2' -> data_related R n w1' w2'.
Proof.
  intros Hn Hd Cw Dw Ho S1 S2 E1 E2. destruct (cov_ok n w1 w2 Hn Hd Cw) as (K1 & K2 & D). rewrite <- D in S2.
  pose proof (step_wp c N n w1 o1 K1 S1) as W1. rewrite E1 in W1. cbn [wp] in W1. destruct W1 as (_ & _ & M1).
  pose proof (step_wp c N n w2 o2 K2 S2) as W2. rewrite E2 in W2. cbn [wp] in W2. destruct W2 as (_ & _ & M2). rewrite D in S2.
  pose proof Cw as (Cf & _ & _). pose proof Dw as (Hx & Hu & Hz).
  destruct o1; destruct o2; cbn [op_related] in Ho; try contradiction; try discriminate Ho; try (injection Ho; intros; subst); cbn [step op_safe] in *.
  - apply (data_kept n w1 w2); [exact (M1 eq_refl)|exact (M2 eq_refl)|exact Dw|]. ob E1 f1 F1. ob E2 f2 F2. injection E1 as <-. injection E2 as <-. exact (predict_data n _ _ _ _ Hn Cf Hx F1 F2).
  - apply (data_kept n w1 w2); [exact (M1 eq_refl)|exact (M2 eq_refl)|exact Dw|]. ob E1 f1 F1. ob E2 f2 F2. injection E1 as <-. injection E2 as <-. exact (predict_tuned_data n _ _ _ _ _ Hn Cf Hx F1 F2).
  - apply (data_kept n w1 w2); [exact (M1 eq_refl)|exact (M2 eq_refl)|exact Dw|]. ob E1 f1 F1. ob E2 f2 F2. injection E1 as <-. injection E2 as <-. exact (predict_nl_data n _ _ _ _ _ _ Hn Cf Hx S1 S2 Ho F1 F2).
  - destruct Ho as [<- Ho]. apply (data_kept n w1 w2); [exact (M1 eq_refl)|exact (M2 eq_refl)|exact Dw|]. ob E1 f1 F1. ob E2 f2 F2. injection E1 as <-. injection E2 as <-. exact (predict_tuned_nl_data n _ _ _ _ _ _ _ Hn Cf Hx S1 S2 Ho F1 F2).
  - pose proof (cov_ct_nth c n w1 w2 i0 Cw) as P. pose proof (HistGen.Forall2_nth _ _ _ i0 Hu) as Pu.
    destruct (nth_error (w_ct w1) i0) as [[m1 k1]|], (nth_error (w_ct w2) i0) as [[m2 k2]|]; try contradiction; [|injection E1 as <-; injection E2 as <-; exact Dw].
    destruct P as [<- P]. cbn [fst snd] in Pu. apply (data_kept n w1 w2); [exact (M1 eq_refl)|exact (M2 eq_refl)|exact Dw|]. ob E1 r1 F1. ob E2 r2 F2. destruct r1 as [k1' f1], r2 as [k2' f2]. injection E1 as <-. injection E2 as <-.
    exact (control_data n m1 _ _ _ _ _ _ _ _ Hn Cf P Hx Pu F1 F2).
  - pose proof (cov_ob_nth c n w1 w2 j0 Cw) as P. pose proof (HistGen.Forall2_nth _ _ _ j0 Hz) as Pu.
    destruct (nth_error (w_ob w1) j0) as [[m1 k1]|] eqn:Ej, (nth_error (w_ob w2) j0) as [[m2 k2]|]; try contradiction; [|injection E1 as <-; injection E2 as <-; exact Dw].
    destruct P as [<- P]. cbn [fst snd] in Pu. apply (data_kept n w1 w2); [exact (M1 eq_refl)|exact (M2 eq_refl)|exact Dw|]. ob E1 r1 F1. ob E2 r2 F2. destruct r1 as [k1' f1], r2 as [k2' f2]. injection E1 as <-. injection E2 as <-.
    pose proof (HistGen.Forall_nth _ _ _ _ Hd (ob_dims_nth _ _ _ _ Ej)) as Hm. exact (proj2 (correct_data n m1 _ _ _ _ _ _ _ _ Hn Hm Cf P Hx Pu F1 F2)).
  - destruct Ho as [<- Ho]. pose proof (cov_ob_nth c n w1 w2 j Cw) as P. pose proof (HistGen.Forall2_nth _ _ _ j Hz) as Pu.
    destruct (nth_error (w_ob w1) j) as [[m1 k1]|] eqn:Ej, (nth_error (w_ob w2) j) as [[m2 k2]|]; try contradiction; [|injection E1 as <-; injection E2 as <-; exact Dw].
    destruct P as [<- P]. cbn [fst snd] in Pu. apply (data_kept n w1 w2); [exact (M1 eq_refl)|exact (M2 eq_refl)|exact Dw|]. ob E1 r1 F1. ob E2 r2 F2. destruct r1 as [k1' f1], r2 as [k2' f2]. injection E1 as <-. injection E2 as <-.
    pose proof (HistGen.Forall_nth _ _ _ _ Hd (ob_dims_nth _ _ _ _ Ej)) as Hm. rewrite (ob_dims_nth _ _ _ _ Ej) in S1, S2, Ho.
    exact (proj2 (correct_nl_data n m1 _ _ _ _ _ _ _ _ _ _ Hn Hm Cf P Hx Pu S1 S2 Ho F1 F2)).
  - injection E1 as <-. injection E2 as <-. exact Dw.
  - injection E1 as <-. injection E2 as <-. destruct Cf as ((_ & V1 & _) & (_ & V2 & _) & _). split; [|split; [exact Hu|exact Hz]]. exact (put_rel n _ _ _ _ V1 V2 Hx Ho).
  - injection E1 as <-. injection E2 as <-. exact Dw.
  - injection E1 as <-. injection E2 as <-. exact Dw.
  - pose proof (HistGen.Forall2_nth _ _ _ i0 Hu) as Pu. destruct (nth_error (w_ct w1) i0) as [[m1 k1]|], (nth_error (w_ct w2) i0) as [[m2 k2]|]; try contradiction; injection E1 as <-; injection E2 as <-; [|exact Dw].
    split; [exact Hx|]. split; [|exact Hz]. apply Forall2_upd; [exact Hu|exact Pu].
  - destruct Ho as [<- Ho]. pose proof (cov_ct_nth c n w1 w2 i Cw) as P. pose proof (HistGen.Forall2_nth _ _ _ i Hu) as Pu. destruct (nth_error (w_ct w1) i) as [[m1 k1]|], (nth_error (w_ct w2) i) as [[m2 k2]|]; try contradiction; injection E1 as <-; injection E2 as <-; [|exact Dw].
    destruct P as [<- ((_ & V1 & _) & (_ & V2 & _) & _)].
    split; [exact Hx|]. split; [|exact Hz]. apply Forall2_upd; [exact Hu|]. exact (put_rel m1 _ _ _ _ V1 V2 Pu Ho).
  - pose proof (HistGen.Forall2_nth _ _ _ i0 Hu) as Pu. destruct (nth_error (w_ct w1) i0) as [[m1 k1]|], (nth_error (w_ct w2) i0) as [[m2 k2]|]; try contradiction; injection E1 as <-; injection E2 as <-; [|exact Dw].
    split; [exact Hx|]. split; [|exact Hz]. apply Forall2_upd; [exact Hu|exact Pu].
  - pose proof (HistGen.Forall2_nth _ _ _ j0 Hz) as Pu. destruct (nth_error (w_ob w1) j0) as [[m1 k1]|], (nth_error (w_ob w2) j0) as [[m2 k2]|]; try contradiction; injection E1 as <-; injection E2 as <-; [|exact Dw].
    split; [exact Hx|]. split; [exact Hu|]. apply Forall2_upd; [exact Hz|exact Pu].
  - destruct Ho as [<- Ho]. pose proof (cov_ob_nth c n w1 w2 j Cw) as P. pose proof (HistGen.Forall2_nth _ _ _ j Hz) as Pu. destruct (nth_error (w_ob w1) j) as [[m1 k1]|], (nth_error (w_ob w2) j) as [[m2 k2]|]; try contradiction; injection E1 as <-; injection E2 as <-; [|exact Dw].
    destruct P as [<- ((_ & V1 & _) & (_ & V2 & _) & _)].
    split; [exact Hx|]. split; [exact Hu|]. apply Forall2_upd; [exact Hz|]. exact (put_rel m1 _ _ _ _ V1 V2 Pu Ho).
  - pose proof (HistGen.Forall2_nth _ _ _ j0 Hz) as Pu. destruct (nth_error (w_ob w1) j0) as [[m1 k1]|], (nth_error (w_ob w2) j0) as [[m2 k2]|]; try contradiction; injection E1 as <-; injection E2 as <-; [|exact Dw].
    split; [exact Hx|]. split; [exact Hu|]. apply Forall2_upd; [exact Hz|exact Pu].
Qed.
Lemma run_data n os1 os2 : 1 <= n -> forall (w1 w2 w1' w2' : world T) dims, ob_dims w1 = dims -> Forall (fun m => 1 <= m) dims -> world_cov c n w1 w2 -> data_related R n w1 w2 ->
  Forall2 (op_related R n dims) os1 os2 -> Forall (op_safe c N n dims) os1 -> Forall (op_safe c N n dims) os2 ->
  run c N n w1 os1 = Ok w1' -> run c N n w2 os2 = Ok w2' -> world_cov c n w1' w2' /\ data_related R n w1' w2'.
Proof.
  intros Hn. revert os2. induction os1 as [|o1 os1 IH]; intros os2 w1 w2 w1' w2' dims Hdim Hd Cw Dw Ho S1 S2 E1 E2.
  - inversion Ho; subst. injection E1 as <-. injection E2 as <-. auto.
  - inversion Ho as [|? o2 ? os2' Ho1 Ho2]; subst. inversion S1; subst. inversion S2; subst. cbn [run] in E1, E2. ob E1 v1 F1. ob E2 v2 F2.
    pose proof (step_cov c N n w1 w2 o1 o2 Hn Hd Cw (op_related_cov n _ o1 o2 Ho1) ltac:(assumption) ltac:(assumption)) as CC. rewrite F1, F2 in CC. cbn [rok] in CC.
    apply (IH os2' v1 v2 w1' w2' (ob_dims w1)); auto; [exact (proj2 (step_dims c N n w1 o1 v1 F1))|].
    eapply step_data; try exact F1; try exact F2; eauto.
Qed.
End Gen.

(** ** floats *)
Section Float.
Context (prec emax : Z).
Lemma round_aux_opp s m e l : binary_round_aux prec emax (negb s) m e l = SFopp (binary_round_aux prec emax s m e l).
Proof.
  unfold binary_round_aux. destruct (shr_fexp prec emax m e l) as [mrs' e']. destruct (shr_fexp prec emax _ e' loc_Exact) as [mrs'' e''].
  destruct (shr_m mrs''); cbn; try reflexivity. destruct (Z.leb e'' (emax - prec)); reflexivity.
Qed.
Lemma round_opp s m e : binary_round prec emax (negb s) m e = SFopp (binary_round prec emax s m e).
Proof. unfold binary_round. destruct (shl_align m e _). apply round_aux_opp. Qed.
Lemma normalize_opp m e : opposite (binary_normalize prec emax m e false) (binary_normalize prec emax (- m) e false).
Proof. destruct m as [|m|m]; cbn; [right; split; exact I| |]; left; [exact (round_opp false m e)|exact (round_opp true m e)]. Qed.
Lemma cond_opp s m : cond_Zopp (negb s) m = (- cond_Zopp s m)%Z.
Proof. destruct s; cbn; lia. Qed.
Lemma mul_opposite k a b : opposite a b -> opposite (SFmul prec emax k a) (SFmul prec emax k b).
Proof.
  intros [->|[Ha Hb]].
  - left. destruct k as [s|s| |s m e], a as [t|t| |t n f]; cbn; try reflexivity; try (destruct s, t; reflexivity). rewrite <- round_aux_opp. f_equal. destruct s, t; reflexivity.
  - destruct a; try contradiction; destruct b; try contradiction. destruct k; cbn; try (left; reflexivity); right; split; exact I.
Qed.
Lemma add_opposite a b a' b' : opposite a b -> opposite a' b' -> opposite (SFadd prec emax a a') (SFadd prec emax b b').
Proof.
  intros [->|[Ha Hb]] [->|[Ha' Hb']].
  - destruct a as [s|s| |s m e], a' as [t|t| |t n f]; cbn [SFopp]; try (left; reflexivity); try (right; destruct s, t; split; exact I); try (left; destruct s, t; reflexivity).
    unfold SFadd. rewrite !cond_opp. rewrite <- Z.opp_add_distr. apply normalize_opp.
  - destruct a'; try contradiction; destruct b'; try contradiction. destruct a as [t|t| |t m e]; cbn [SFopp SFadd]; try (left; reflexivity). right. destruct t, s, s0; split; exact I.
  - destruct a; try contradiction; destruct b; try contradiction. destruct a' as [t|t| |t m e]; cbn [SFopp SFadd]; try (left; reflexivity). right. destruct t, s, s0; split; exact I.
  - destruct a; try contradiction; destruct b; try contradiction; destruct a'; try contradiction; destruct b'; try contradiction. right. destruct s, s0, s1, s2; split; exact I.
Qed.
Lemma sub_opposite a b a' b' : opposite a b -> opposite a' b' -> opposite (SFsub prec emax a a') (SFsub prec emax b b').
Proof.
  intros [->|[Ha Hb]] [->|[Ha' Hb']].
  - destruct a as [s|s| |s m e], a' as [t|t| |t n f]; cbn [SFopp]; try (left; reflexivity); try (right; destruct s, t; split; exact I); try (left; destruct s, t; reflexivity).
    unfold SFsub. rewrite !cond_opp, Z.sub_opp_r. replace (- cond_Zopp s _ + _)%Z with (- (cond_Zopp s (Z.pos (fst (shl_align m e (Z.min e f)))) - cond_Zopp t (Z.pos (fst (shl_align n f (Z.min e f))))))%Z by lia. apply normalize_opp.
  - destruct a'; try contradiction; destruct b'; try contradiction. destruct a as [t|t| |t m e]; cbn [SFopp SFsub]; try (left; reflexivity). right. destruct t, s, s0; split; exact I.
  - destruct a; try contradiction; destruct b; try contradiction. destruct a' as [t|t| |t m e]; cbn [SFopp SFsub]; try (left; reflexivity). right. destruct t, s, s0; split; exact I.
  - destruct a; try contradiction; destruct b; try contradiction; destruct a'; try contradiction; destruct b'; try contradiction. right. destruct s, s0, s1, s2; split; exact I.
Qed.
Lemma mirror_laws sz : data_laws (sf_num prec emax sz) opposite.
Proof.
  split; [|split].
  - intros k a b v w H [= <-] [= <-]. apply mul_opposite, H.
  - intros a b a' b' v w H H' [= <-] [= <-]. apply add_opposite; assumption.
  - intros a b a' b' v w H H' [= <-] [= <-]. apply sub_opposite; assumption.
Qed.
Lemma zero_sign_laws sz : data_laws (sf_num prec emax sz) float_same.
Proof.
  split; [|split].
  - intros k a b v w H [= <-] [= <-]. destruct H as [<-|[Ha Hb]]; [left; reflexivity|]. destruct a; try contradiction; destruct b; try contradiction. destruct k; cbn; try (left; reflexivity); right; split; exact I.
  - intros a b a' b' v w H H' [= <-] [= <-]. destruct H as [<-|[Ha Hb]], H' as [<-|[Ha' Hb']]; [left; reflexivity| | |].
    + destruct a'; try contradiction; destruct b'; try contradiction. destruct a as [t|t| |t m e]; cbn [SFadd]; try (left; reflexivity). right. destruct t, s, s0; split; exact I.
    + destruct a; try contradiction; destruct b; try contradiction. destruct a' as [t|t| |t m e]; cbn [SFadd]; try (left; reflexivity). right. destruct t, s, s0; split; exact I.
    + destruct a; try contradiction; destruct b; try contradiction; destruct a'; try contradiction; destruct b'; try contradiction. right. destruct s, s0, s1, s2; split; exact I.
  - intros a b a' b' v w H H' [= <-] [= <-]. destruct H as [<-|[Ha Hb]], H' as [<-|[Ha' Hb']]; [left; reflexivity| | |].
    + destruct a'; try contradiction; destruct b'; try contradiction. destruct a as [t|t| |t m e]; cbn [SFsub]; try (left; reflexivity). right. destruct t, s, s0; split; exact I.
    + destruct a; try contradiction; destruct b; try contradiction. destruct a' as [t|t| |t m e]; cbn [SFsub]; try (left; reflexivity). right. destruct t, s, s0; split; exact I.
    + destruct a; try contradiction; destruct b; try contradiction; destruct a'; try contradiction; destruct b'; try contradiction. right. destruct s, s0, s1, s2; split; exact I.
Qed.
End Float.
Lemma run_never {T} (c : cfg) (N : num T) n (w : world T) os : never_panics N -> world_ok c n w -> Forall (op_safe c N n (ob_dims w)) os -> exists w', run c N n w os = Ok w'.
Proof.
  intros HN Hw Hs. pose proof (run_wp c N n w os Hw Hs) as W. destruct (run c N n w os) as [w'|e]; [eauto|]. cbn [wp] in W. destruct W as [_ W]. contradiction.
Qed.
Lemma float_data (c : cfg) prec emax sz (R : spec_float -> spec_float -> Prop) n (w1 w2 : world spec_float) os1 os2 : data_laws (sf_num prec emax sz) R -> 1 <= n ->
  Forall (fun m => 1 <= m) (ob_dims w1) -> world_cov c n w1 w2 -> data_related R n w1 w2 -> Forall2 (op_related R n (ob_dims w1)) os1 os2 ->
  Forall (op_safe c (sf_num prec emax sz) n (ob_dims w1)) os1 -> Forall (op_safe c (sf_num prec emax sz) n (ob_dims w1)) os2 ->
  exists w1' w2', run c (sf_num prec emax sz) n w1 os1 = Ok w1' /\ run c (sf_num prec emax sz) n w2 os2 = Ok w2' /\ world_cov c n w1' w2' /\ data_related R n w1' w2'.
Proof.
  intros L Hn Hd Cw Dw Ho S1 S2. destruct (cov_ok c n w1 w2 Hn Hd Cw) as (K1 & K2 & D).
  destruct (run_never c _ n w1 os1 (sf_never_panics prec emax sz) K1 S1) as [w1' E1]. destruct (run_never c _ n w2 os2 (sf_never_panics prec emax sz) K2 ltac:(rewrite D; exact S2)) as [w2' E2].
  exists w1', w2'. split; [exact E1|]. split; [exact E2|]. exact (run_data c _ R L n os1 os2 Hn w1 w2 w1' w2' (ob_dims w1) eq_refl Hd Cw Dw Ho S1 S2 E1 E2).
Qed.
Lemma float_mirror (c : cfg) prec emax sz n (w1 w2 : world spec_float) os1 os2 : 1 <= n ->
  Forall (fun m => 1 <= m) (ob_dims w1) -> world_cov c n w1 w2 -> data_related opposite n w1 w2 -> Forall2 (op_related opposite n (ob_dims w1)) os1 os2 ->
  Forall (op_safe c (sf_num prec emax sz) n (ob_dims w1)) os1 -> Forall (op_safe c (sf_num prec emax sz) n (ob_dims w1)) os2 ->
  exists w1' w2', run c (sf_num prec emax sz) n w1 os1 = Ok w1' /\ run c (sf_num prec emax sz) n w2 os2 = Ok w2' /\ world_cov c n w1' w2' /\ data_related opposite n w1' w2'.
Proof. apply float_data, mirror_laws. Qed.
Lemma float_zeros (c : cfg) prec emax sz n (w1 w2 : world spec_float) os1 os2 : 1 <= n ->
  Forall (fun m => 1 <= m) (ob_dims w1) -> world_cov c n w1 w2 -> data_related float_same n w1 w2 -> Forall2 (op_related float_same n (ob_dims w1)) os1 os2 ->
  Forall (op_safe c (sf_num prec emax sz) n (ob_dims w1)) os1 -> Forall (op_safe c (sf_num prec emax sz) n (ob_dims w1)) os2 ->
  exists w1' w2', run c (sf_num prec emax sz) n w1 os1 = Ok w1' /\ run c (sf_num prec emax sz) n w2 os2 = Ok w2' /\ world_cov c n w1' w2' /\ data_related float_same n w1' w2'.
Proof. apply float_data, zero_sign_laws. Qed.
