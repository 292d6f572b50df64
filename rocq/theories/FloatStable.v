(** * A contracting system stays in range for ever, and its rounding errors do not pile up *)
From Coq Require Import ZArith Reals Lia Lra Psatz.
From Flocq Require Import Core BinarySingleNaN.
From Verif Require Import Prelude Spec SpecBits Matrix Filter SpecFilter SpecParam Param Kernels FilterGen FilterTwo HistGen FloatNum SpecFloats SpecReal SpecRange SpecStable FloatGen FloatFlocq FloatOps FloatErr FloatInt FloatPredict FloatFmt FloatUpdate BitsProof FloatRange FloatFactor FloatForward.
Import SpecFloat.
Open Scope R_scope.

Section Stable.
Variables (c : cfg) (prec emax : Z) (sz : bool).
Hypothesis HF : format_ok prec emax.
Notation NN := (sf_num prec emax sz).
Notation u := (uro prec). Notation e := (eta prec emax). Notation tb := (too_big emax).

(** ** pure arithmetic *)
Lemma dot_abs K (f g : nat -> R) b D : 0 <= D -> rsum K (fun k => Rabs (f k)) <= b -> (forall k, (k < K)%nat -> Rabs (g k) <= D) ->
  0 <= rsum K (fun k => Rabs (f k) * Rabs (g k)) <= b * D.
Proof.
  intros HD Hf Hg. split; [apply rsum_pos; intros; apply Rmult_le_pos; apply Rabs_pos|].
  eapply Rle_trans; [apply rsum_le with (g := fun k => Rabs (f k) * D)|].
  - intros k Hk. apply Rmult_le_compat_l; [apply Rabs_pos|]. apply Hg, Hk.
  - rewrite <- rsum_mult_r. apply Rmult_le_compat_r; auto.
Qed.
Lemma dot_abs_le K (f g : nat -> R) b D : 0 <= D -> rsum K (fun k => Rabs (f k)) <= b -> (forall k, (k < K)%nat -> Rabs (g k) <= D) ->
  Rabs (rsum K (fun k => f k * g k)) <= b * D.
Proof.
  intros HD Hf Hg. eapply Rle_trans; [apply rsum_abs|]. eapply Rle_trans; [|apply (dot_abs K f g b D HD Hf Hg)].
  right. apply rsum_ext. intros. apply Rabs_mult.
Qed.
Lemma mat_abs K1 K2 (s t : nat -> nat -> R) (a : nat -> R) b D : 0 <= D -> 0 <= b -> (forall k, (k < K2)%nat -> rsum K1 (fun l => Rabs (s k l)) <= b) -> (forall k l, (k < K2)%nat -> (l < K1)%nat -> Rabs (t k l) <= D) ->
  rsum K2 (fun k => Rabs (a k)) <= b ->
  0 <= rsum K2 (fun k => rsum K1 (fun l => Rabs (s k l) * Rabs (t k l)) * Rabs (a k)) <= b * b * D.
Proof.
  intros HD Hb Hs Ht Ha.
  assert (HI : forall k, (k < K2)%nat -> 0 <= rsum K1 (fun l => Rabs (s k l) * Rabs (t k l)) <= b * D) by (intros k Hk; apply dot_abs; auto).
  split.
  - apply rsum_pos. intros k Hk. apply Rmult_le_pos; [apply HI, Hk|apply Rabs_pos].
  - eapply Rle_trans; [apply rsum_le with (g := fun k => (b * D) * Rabs (a k))|].
    + intros k Hk. apply Rmult_le_compat_r; [apply Rabs_pos|]. apply HI, Hk.
    + rewrite (rsum_ext K2 _ (fun k => Rabs (a k) * (b * D))) by (intros; ring). rewrite <- rsum_mult_r.
      replace (b * b * D) with (b * (b * D)) by ring. apply Rmult_le_compat_r; [apply Rmult_le_pos; auto|exact Ha].
Qed.
Lemma mat_abs_le K1 K2 (s t : nat -> nat -> R) (a : nat -> R) b D : 0 <= D -> 0 <= b -> (forall k, (k < K2)%nat -> rsum K1 (fun l => Rabs (s k l)) <= b) -> (forall k l, (k < K2)%nat -> (l < K1)%nat -> Rabs (t k l) <= D) ->
  rsum K2 (fun k => Rabs (a k)) <= b ->
  Rabs (rsum K2 (fun k => rsum K1 (fun l => s k l * t k l) * a k)) <= b * b * D.
Proof.
  intros HD Hb Hs Ht Ha. eapply Rle_trans; [apply rsum_abs|]. eapply Rle_trans; [|apply (mat_abs K1 K2 s t a b D HD Hb Hs Ht Ha)].
  apply rsum_le. intros k Hk. rewrite Rabs_mult. apply Rmult_le_compat_r; [apply Rabs_pos|].
  eapply Rle_trans; [apply rsum_abs|]. right. apply rsum_ext. intros. apply Rabs_mult.
Qed.

Lemma pow_le j G : (1 + u) ^ j <= G -> 1 <= (1 + u) ^ j <= G.
Proof. intros H. split; [|exact H]. apply pow_R1_Rle. pose proof (uro_pos prec). lra. Qed.

(** ** cells *)
Lemma cell_room_lv K f g b D G : 0 <= D -> 0 <= b -> (1 + u) ^ K <= G -> rsum K (fun k => Rabs (f k)) <= b -> (forall k, (k < K)%nat -> Rabs (g k) <= D) ->
  G * (b * D + INR K * e) < tb -> cell_room prec emax K f g.
Proof.
  intros HD Hb HG Hf Hg HR. unfold cell_room. eapply Rle_lt_trans; [|exact HR]. destruct (pow_le _ _ HG) as (H1 & _).
  pose proof (dot_abs K f g b D HD Hf Hg) as (H0 & H2). pose proof (eta_pos prec emax). pose proof (pos_INR K).
  assert (0 <= INR K * e) by (apply Rmult_le_pos; lra). apply Rmult_le_compat; lra.
Qed.
Lemma vec_room_lv K q f g Q0 b D G : 0 <= D -> 0 <= b -> (1 + u) ^ (K + 1) <= G -> Rabs q <= Q0 -> rsum K (fun k => Rabs (f k)) <= b -> (forall k, (k < K)%nat -> Rabs (g k) <= D) ->
  G * (Q0 + (b * D + INR K * e)) < tb -> vec_room prec emax K q f g.
Proof.
  intros HD Hb HG Hq Hf Hg HR. unfold vec_room. eapply Rle_lt_trans; [|exact HR]. destruct (pow_le _ _ HG) as (H1 & _).
  pose proof (dot_abs K f g b D HD Hf Hg) as (H0 & H2). pose proof (eta_pos prec emax). pose proof (pos_INR K). pose proof (Rabs_pos q).
  assert (0 <= INR K * e) by (apply Rmult_le_pos; lra). apply Rmult_le_compat; lra.
Qed.
Lemma mat_room_lv K q s t a Q0 b D G : 0 <= D -> 0 <= b -> (1 + u) ^ (K + K + 1) <= G -> Rabs q <= Q0 -> (forall k, (k < K)%nat -> rsum K (fun l => Rabs (s k l)) <= b) ->
  (forall k l, (k < K)%nat -> (l < K)%nat -> Rabs (t k l) <= D) -> rsum K (fun k => Rabs (a k)) <= b ->
  G * (b * D + INR K * e) < tb -> G * (Q0 + (b * b * D + (INR K * b + INR K) * e)) < tb -> mat_room prec emax K K q s t a.
Proof.
  intros HD Hb HG Hq Hs Ht Ha HR1 HR. destruct (pow_le _ _ HG) as (H1 & _). split.
  - intros k Hk. apply (cell_room_lv K _ _ b D G); auto. eapply Rle_trans; [|exact HG]. apply Rle_pow; [pose proof (uro_pos prec); lra|lia].
  - eapply Rle_lt_trans; [|exact HR]. pose proof (mat_abs K K s t a b D HD Hb Hs Ht Ha) as (H0 & H2). pose proof (eta_pos prec emax). pose proof (pos_INR K). pose proof (Rabs_pos q).
    assert (0 <= rsum K (fun k => Rabs (a k))) by (apply rsum_pos; intros; apply Rabs_pos).
    assert (0 <= INR K * rsum K (fun k => Rabs (a k)) <= INR K * b) by nra.
    assert (0 <= (INR K * rsum K (fun k => Rabs (a k)) + INR K) * e <= (INR K * b + INR K) * e) by nra.
    apply Rmult_le_compat; lra.
Qed.
(** one bound for value and error *)
Lemma lv_comb v s g G a A E : Rabs (v - s) <= (g - 1) * a + g * E -> Rabs s <= A -> 1 <= g <= G -> 0 <= a <= A -> 0 <= E ->
  Rabs (v - s) <= (G - 1) * A + G * E /\ Rabs v <= G * (A + E).
Proof.
  intros H Hs Hg Ha HE.
  assert (H1 : (g - 1) * a <= (G - 1) * A) by (apply Rmult_le_compat; lra).
  assert (H2 : g * E <= G * E) by (apply Rmult_le_compat_r; lra).
  split; [lra|]. replace v with ((v - s) + s) by ring. eapply Rle_trans; [apply Rabs_triang|]. nra.
Qed.

(** ** one call *)
Lemma at_most_pos R C l M : (1 <= R)%nat -> (1 <= C)%nat -> at_most R C l M -> 0 <= M.
Proof. intros HR HC H. eapply Rle_trans; [apply Rabs_pos|apply (H 0%nat 0%nat)]; lia. Qed.
Lemma rows_pos R C l b : (1 <= R)%nat -> rows_within R C l b -> 0 <= b.
Proof. intros HR H. eapply Rle_trans; [|apply (H 0%nat)]; [|lia]. apply rsum_pos. intros. apply Rabs_pos. Qed.

Lemma predict_lv n (f : kalman spec_float) rho q X M G : (1 <= n)%nat -> kf_valid c n f -> kf_all_format prec emax f ->
  fin_matrix n n (kf_A f) -> fin_matrix n n (kf_Q f) -> fin_matrix n 1 (kf_x f) -> fin_matrix n n (kf_P f) ->
  rows_within n n (kf_A f) rho -> at_most n n (kf_Q f) q -> at_most n 1 (kf_x f) X -> at_most n n (kf_P f) M ->
  (1 + u) ^ (n + n + 1) <= G -> G * (rho * X + INR n * e) < tb -> G * (rho * M + INR n * e) < tb -> G * (q + (rho * rho * M + (INR n * rho + INR n) * e)) < tb ->
  exists f', predict c NN n f = Ok f' /\ kf_valid c n f' /\ kf_same_model f f' /\ kf_all_format prec emax f' /\ fin_matrix n 1 (kf_x f') /\ fin_matrix n n (kf_P f') /\
  (forall i, (i < n)%nat -> Rabs (rcell 1 (kf_x f') i 0 - rsum n (fun k => rcell n (kf_A f) i k * rcell 1 (kf_x f) k 0)) <= (G - 1) * (rho * X) + G * (INR n * e) /\
     Rabs (rcell 1 (kf_x f') i 0) <= G * (rho * X + INR n * e)) /\
  (forall i j, (i < n)%nat -> (j < n)%nat -> Rabs (rcell n (kf_P f') i j - pred_P n (rcell n (kf_A f)) (rcell n (kf_P f)) (rcell n (kf_Q f)) i j) <= (G - 1) * (q + rho * rho * M) + G * ((INR n * rho + INR n) * e) /\
     Rabs (rcell n (kf_P f') i j) <= G * (q + rho * rho * M + (INR n * rho + INR n) * e)).
Proof.
  intros Hn Hf (Ff & Fpx & FtP) IA IQ Ix IP RA BQ Bx BP HG H1 H2 H3. destruct (pow_le _ _ HG) as (Hg & _).
  pose proof (at_most_pos _ _ _ _ Hn (le_n 1) Bx) as HX. pose proof (at_most_pos _ _ _ _ Hn Hn BP) as HM. pose proof (at_most_pos _ _ _ _ Hn Hn BQ) as HQ. pose proof (rows_pos _ _ _ _ Hn RA) as Hr.
  pose proof (eta_pos prec emax) as He. pose proof (pos_INR n) as HN. assert (HN1 : 0 <= INR n * e) by (apply Rmult_le_pos; lra).
  assert (HN2 : 0 <= INR n * rho) by (apply Rmult_le_pos; lra).
  assert (HGn : (1 + u) ^ n <= G). { eapply Rle_trans; [|exact HG]. apply Rle_pow; [pose proof (uro_pos prec); lra|lia]. }
  destruct (predict_fin c prec emax sz HF n f Hn Hf Ff IA Ix IP IQ) as (f' & E & FX & FP). exists f'. split; [exact E|].
  pose proof (predict_wp c NN n f Hn Hf) as HW. rewrite E in HW. cbn [wp] in HW. destruct HW as (Vf' & SM & _). split; [exact Vf'|]. split; [exact SM|].
  assert (FM : kf_all_format prec emax f').
  { destruct Ff as (FA & Fx & FPf & FQ). assert (H : SpecParam.kf_rel (same_fmt prec emax) f f) by (repeat split; apply fmt_list; assumption).
    pose proof (p_predict False (same_fmt prec emax) c NN NN (same_fmt_num prec emax sz HF) n f f H) as HR. rewrite E in HR.
    destruct HR as [HR|HR]; [destruct HR as ([] & _)|]. destruct HR as (K1 & K2 & K3 & K4 & K5 & K6). split; [|split]; [repeat split|..]; eapply fmt_list2; eassumption. }
  split; [exact FM|].
  assert (FX' : fin_matrix n 1 (kf_x f')).
  { intros i j Hi Hj. assert (j = 0)%nat by lia. subst j. apply FX; auto. apply (cell_room_lv _ _ _ rho X G); auto. }
  assert (FP' : fin_matrix n n (kf_P f')).
  { intros i j Hi Hj. apply FP; auto. apply (mat_room_lv _ _ _ _ _ q rho M G); auto. }
  split; [exact FX'|]. split; [exact FP'|].
  destruct (predict_err c prec emax sz HF n f Hn Hf Ff) as (f1 & E1 & EX & _). assert (f1 = f') by congruence. subst f1.
  destruct (predict_forward c prec emax sz HF n f Hn Hf Ff) as (f1 & E2 & EP). assert (f1 = f') by congruence. subst f1.
  split.
  - intros i Hi. destruct (EX i Hi) as (r & Er & _ & B). destruct (FX' i 0%nat Hi (le_n 1)) as (r' & Er' & Fr). assert (r' = r) by congruence. subst r'.
    destruct (B Fr) as (B1 & _). unfold rcell at 1 4. rewrite Er.
    apply (lv_comb (val r) _ ((1 + u) ^ n) G (rsum n (fun k => Rabs (rcell n (kf_A f) i k) * Rabs (rcell 1 (kf_x f) k 0)))); auto.
    + eapply Rle_trans; [exact B1|]. right. ring.
    + apply dot_abs_le; auto.
    + apply pow_le, HGn.
    + apply dot_abs; auto.
  - intros i j Hi Hj. destruct (FP' i j Hi Hj) as (r & Er & Fr). pose proof (EP i j r Hi Hj Er Fr) as B. unfold rcell at 1 5. rewrite Er.
    unfold pred_err in B. cbv zeta in B.
    set (A := rcell n (kf_A f)) in *. set (P := rcell n (kf_P f)) in *. set (Q := rcell n (kf_Q f)) in *.
    assert (HS : 0 <= rsum n (fun k => rsum n (fun l => Rabs (A i l) * Rabs (P l k)) * Rabs (A j k)) <= rho * rho * M) by (apply (mat_abs n n (fun _ l => A i l) (fun k l => P l k) (A j)); auto).
    assert (HQi : Rabs (Q i j) <= q) by (apply BQ; auto). pose proof (Rabs_pos (Q i j)) as HQp.
    apply (lv_comb (val r) _ ((1 + u) ^ (n + n + 1)) G (Rabs (Q i j) + rsum n (fun k => rsum n (fun l => Rabs (A i l) * Rabs (P l k)) * Rabs (A j k)))); auto; try lra; try nra.
    + eapply Rle_trans; [exact B|]. apply Rplus_le_compat_l. rewrite Rmult_assoc. apply Rmult_le_compat_l; [lra|].
      rewrite (Rmult_comm e). apply Rmult_le_compat_r; [lra|]. apply Rplus_le_compat_r. apply Rmult_le_compat_l; [lra|]. apply RA; auto.
    + unfold pred_P. eapply Rle_trans; [apply Rabs_triang|]. apply Rplus_le_compat; [exact HQi|].
      apply (mat_abs_le n n (fun _ l => A i l) (fun k l => P l k) (A j)); auto.
Qed.

Lemma control_lv n m (k : control spec_float) (f : kalman spec_float) beta U qu X M G : (1 <= n)%nat -> (1 <= m)%nat -> kf_valid c n f -> ct_valid c n m k -> kf_all_format prec emax f -> ct_all_format prec emax k ->
  fin_matrix n 1 (kf_x f) -> fin_matrix n n (kf_P f) -> fin_matrix n m (ct_B k) -> fin_matrix m 1 (ct_u k) -> fin_matrix m m (ct_Q k) ->
  rows_within n m (ct_B k) beta -> at_most m 1 (ct_u k) U -> at_most m m (ct_Q k) qu -> at_most n 1 (kf_x f) X -> at_most n n (kf_P f) M ->
  (1 + u) ^ (m + m + 1) <= G -> G * (X + (beta * U + INR m * e)) < tb -> G * (beta * qu + INR m * e) < tb -> G * (M + (beta * beta * qu + (INR m * beta + INR m) * e)) < tb ->
  exists k' f', control_ c NN n m k f = Ok (k', f') /\ kf_valid c n f' /\ kf_same_model f f' /\ kf_all_format prec emax f' /\
  ct_valid c n m k' /\ ct_same_model k k' /\ ct_all_format prec emax k' /\ fin_matrix n 1 (kf_x f') /\ fin_matrix n n (kf_P f') /\
  (forall i, (i < n)%nat -> Rabs (rcell 1 (kf_x f') i 0 - (rcell 1 (kf_x f) i 0 + rsum m (fun l => rcell m (ct_B k) i l * rcell 1 (ct_u k) l 0))) <= (G - 1) * (X + beta * U) + G * (INR m * e) /\
     Rabs (rcell 1 (kf_x f') i 0) <= G * (X + beta * U + INR m * e)) /\
  (forall i j, (i < n)%nat -> (j < n)%nat -> Rabs (rcell n (kf_P f') i j - (rcell n (kf_P f) i j + rsum m (fun p => rsum m (fun l => rcell m (ct_B k) i l * rcell m (ct_Q k) l p) * rcell m (ct_B k) j p))) <= (G - 1) * (M + beta * beta * qu) + G * ((INR m * beta + INR m) * e) /\
     Rabs (rcell n (kf_P f') i j) <= G * (M + beta * beta * qu + (INR m * beta + INR m) * e)).
Proof.
  intros Hn Hm Hf Hk (Ff & Fpx & FtP) (Fk & FBQ) Ix IP IB Iu IQ RB Bu BQ Bx BP HG H1 H2 H3. destruct (pow_le _ _ HG) as (Hg & _).
  pose proof (at_most_pos _ _ _ _ Hn (le_n 1) Bx) as HX. pose proof (at_most_pos _ _ _ _ Hn Hn BP) as HM. pose proof (at_most_pos _ _ _ _ Hm Hm BQ) as HQ. pose proof (at_most_pos _ _ _ _ Hm (le_n 1) Bu) as HU. pose proof (rows_pos _ _ _ _ Hn RB) as Hr.
  pose proof (eta_pos prec emax) as He. pose proof (pos_INR m) as HN. assert (HN1 : 0 <= INR m * e) by (apply Rmult_le_pos; lra).
  assert (HN2 : 0 <= INR m * beta) by (apply Rmult_le_pos; lra).
  assert (HGn : (1 + u) ^ (m + 1) <= G). { eapply Rle_trans; [|exact HG]. apply Rle_pow; [pose proof (uro_pos prec); lra|lia]. }
  destruct (control_fin c prec emax sz HF n m k f Hn Hm Hf Hk Ff Fk Ix IP IB Iu IQ) as (k' & f' & E & FX & FP). exists k', f'. split; [exact E|].
  pose proof (control_wp c NN n m k f Hk Hf) as HW. rewrite E in HW. cbn [wp] in HW. destruct HW as (Vk' & SMk & Vf' & SM & _). split; [exact Vf'|]. split; [exact SM|].
  assert (FM : kf_all_format prec emax f' /\ ct_all_format prec emax k').
  { destruct Ff as (FA & Fx & FPf & FQ). destruct Fk as (G1 & G2 & G3). assert (H : SpecParam.kf_rel (same_fmt prec emax) f f) by (repeat split; apply fmt_list; assumption).
    assert (HC : SpecParam.ct_rel (same_fmt prec emax) k k) by (repeat split; apply fmt_list; assumption).
    pose proof (p_control False (same_fmt prec emax) c NN NN (same_fmt_num prec emax sz HF) n m k k f f HC H) as HR. rewrite E in HR.
    destruct HR as [HR|HR]; [destruct HR as ([] & _)|]. destruct HR as (HCt & HK). cbn [fst snd] in HCt, HK. destruct HK as (K1 & K2 & K3 & K4 & K5 & K6). destruct HCt as (C1 & C2 & C3 & C4).
    split; [split; [|split]; [repeat split|..]|split; [repeat split|]]; eapply fmt_list2; eassumption. }
  split; [exact (proj1 FM)|]. split; [exact Vk'|]. split; [exact SMk|]. split; [exact (proj2 FM)|].
  assert (FX' : fin_matrix n 1 (kf_x f')).
  { intros i j Hi Hj. assert (j = 0)%nat by lia. subst j. apply FX; auto. apply (vec_room_lv _ _ _ _ X beta U G); auto. }
  assert (FP' : fin_matrix n n (kf_P f')).
  { intros i j Hi Hj. apply FP; auto. apply (mat_room_lv _ _ _ _ _ M beta qu G); auto. }
  split; [exact FX'|]. split; [exact FP'|].
  destruct (control_err c prec emax sz HF n m k f Hn Hm Hf Hk Ff Fk) as (k1 & f1 & E1 & EX & EP). assert (f1 = f') by congruence. subst f1.
  split.
  - intros i Hi. destruct (EX i Hi) as (r & Er & _ & B). destruct (FX' i 0%nat Hi (le_n 1)) as (r' & Er' & Fr). assert (r' = r) by congruence. subst r'.
    pose proof (B Fr) as B1. cbv zeta in B1. unfold rcell at 1 5. rewrite Er.
    assert (Hxi : Rabs (rcell 1 (kf_x f) i 0) <= X) by (apply Bx; auto). pose proof (Rabs_pos (rcell 1 (kf_x f) i 0)) as Hxp.
    pose proof (dot_abs m (rcell m (ct_B k) i) (fun l => rcell 1 (ct_u k) l 0) beta U HU ltac:(apply RB; auto) ltac:(intros; apply Bu; auto)) as HS.
    apply (lv_comb (val r) _ ((1 + u) ^ (m + 1)) G (Rabs (rcell 1 (kf_x f) i 0) + rsum m (fun l => Rabs (rcell m (ct_B k) i l) * Rabs (rcell 1 (ct_u k) l 0)))); auto; try lra.
    + eapply Rle_trans; [apply Rabs_triang|]. apply Rplus_le_compat; [exact Hxi|]. apply dot_abs_le; auto.
    + apply pow_le, HGn.
  - intros i j Hi Hj. destruct (EP i j Hi Hj) as (r & Er & _ & B). destruct (FP' i j Hi Hj) as (r' & Er' & Fr). assert (r' = r) by congruence. subst r'.
    pose proof (B Fr) as B1. cbv zeta in B1. unfold rcell at 1 6. rewrite Er.
    set (BB := rcell m (ct_B k)) in *. set (P := rcell n (kf_P f)) in *. set (Q := rcell m (ct_Q k)) in *.
    assert (HS : 0 <= rsum m (fun p => rsum m (fun l => Rabs (BB i l) * Rabs (Q l p)) * Rabs (BB j p)) <= beta * beta * qu) by (apply (mat_abs m m (fun _ l => BB i l) (fun p l => Q l p) (BB j)); auto).
    assert (HPi : Rabs (P i j) <= M) by (apply BP; auto). pose proof (Rabs_pos (P i j)) as HPp.
    apply (lv_comb (val r) _ ((1 + u) ^ (m + m + 1)) G (Rabs (P i j) + rsum m (fun p => rsum m (fun l => Rabs (BB i l) * Rabs (Q l p)) * Rabs (BB j p)))); auto; try lra; try nra.
    + eapply Rle_trans; [exact B1|]. apply Rplus_le_compat_l. rewrite Rmult_assoc. apply Rmult_le_compat_l; [lra|].
      rewrite (Rmult_comm e). apply Rmult_le_compat_r; [lra|]. apply Rplus_le_compat_r. apply Rmult_le_compat_l; [lra|]. apply RB; auto.
    + eapply Rle_trans; [apply Rabs_triang|]. apply Rplus_le_compat; [exact HPi|].
      apply (mat_abs_le m m (fun _ l => BB i l) (fun p l => Q l p) (BB j)); auto.
Qed.

(** ** one turn, and any number of them *)
Variables (n m : nat) (A Q B Qu : list spec_float) (rho beta U q qu X M : R).
Hypotheses (Hn : (1 <= n)%nat) (Hm : (1 <= m)%nat) (HU : 0 <= U) (HK : keeps prec emax n m rho beta U q qu X M).
Notation rA := (rcell n A). Notation rQ := (rcell n Q). Notation rB := (rcell m B). Notation rQu := (rcell m Qu).
Hypotheses (IA : fin_matrix n n A) (IQ : fin_matrix n n Q) (IB : fin_matrix n m B) (IQu : fin_matrix m m Qu).
Hypotheses (RA : rows_within n n A rho) (BQ : at_most n n Q q) (RB : rows_within n m B beta) (BQu : at_most m m Qu qu).
Notation G := (growth prec n m).

Definition level (w : world spec_float) : Prop := exists k cs, w_ct w = (m, k) :: cs /\ let f := w_kf w in
  kf_A f = A /\ kf_Q f = Q /\ ct_B k = B /\ ct_Q k = Qu /\ kf_valid c n f /\ ct_valid c n m k /\ kf_all_format prec emax f /\ ct_all_format prec emax k /\
  fin_matrix n 1 (kf_x f) /\ at_most n 1 (kf_x f) X /\ fin_matrix n n (kf_P f) /\ at_most n n (kf_P f) M.
Definition st (w : world spec_float) : (nat -> R) * (nat -> nat -> R) := (fun i => rcell 1 (kf_x (w_kf w)) i 0, rcell n (kf_P (w_kf w))).

Lemma G_pow j : (j <= 2 * (n + m) + 1)%nat -> (1 + u) ^ j <= G.
Proof. intros H. apply Rle_pow; [pose proof (uro_pos prec); lra|exact H]. Qed.
Lemma G1 : 1 <= G. Proof. pose proof (G_pow 0 ltac:(lia)) as H. cbn in H. exact H. Qed.

Lemma put_u (k : control spec_float) (v : list spec_float) : ct_valid c n m k -> length v = m -> forall i, (i < m)%nat -> cell 1 (put (ct_u k) v) i 0 = cell 1 v i 0.
Proof.
  intros (_ & (V & _) & _) L i Hi. unfold cell. rewrite nth_put by lia. destruct (Nat.ltb_spec (i * 1 + 0) (length v)); [reflexivity|lia].
Qed.
Lemma put_fmt (old new : list spec_float) : all_in_format prec emax old -> all_in_format prec emax new -> all_in_format prec emax (put old new).
Proof. intros H1 H2. unfold put. apply Forall_app. split.
  - rewrite <- (firstn_skipn (length old) new) in H2. apply Forall_app in H2. apply H2.
  - rewrite <- (firstn_skipn (length new) old) in H1. apply Forall_app in H1. apply H1.
Qed.

Lemma turn_lv w t : level w -> turn_ok prec emax m U t ->
  exists w', run c NN n w (turn_ops t) = Ok w' /\ level w' /\
  (forall i, (i < n)%nat -> Rabs (fst (st w') i - fst (ideal_turn n m rA rQ rB rQu t (st w)) i) <= turn_err prec emax n m rho beta U X) /\
  (forall i j, (i < n)%nat -> (j < n)%nat -> Rabs (snd (st w') i j - snd (ideal_turn n m rA rQ rB rQu t (st w)) i j) <= turn_cov_err prec emax n m rho beta q qu M).
Proof.
  intros (k & cs & Ect & EA & EQ & EB & EQu & Vf & Vk & Ff & Fk & Ix & Bx & IP & BP) Ht.
  destruct w as [f cts obs]. cbn [w_kf w_ct] in *. subst cts. pose proof G1 as HG1.
  pose proof (at_most_pos _ _ _ _ Hn (le_n 1) Bx) as HX. pose proof (at_most_pos _ _ _ _ Hn Hn BP) as HM. pose proof (at_most_pos _ _ _ _ Hn Hn BQ) as Hq. pose proof (at_most_pos _ _ _ _ Hm Hm BQu) as Hqu.
  pose proof (rows_pos _ _ _ _ Hn RA) as Hr. pose proof (rows_pos _ _ _ _ Hn RB) as Hb. pose proof (eta_pos prec emax) as He. pose proof (pos_INR n) as HN. pose proof (pos_INR m) as HMm.
  destruct HK as (K1 & K2 & K3 & K4 & K5 & K6). cbv zeta in *. set (g := growth prec n m) in *.
  assert (D1 : 0 <= beta * U + INR m * e) by (pose proof (Rmult_le_pos _ _ Hb HU); nra).
  assert (D2 : 0 <= beta * beta * qu + (INR m * beta + INR m) * e). { pose proof (Rmult_le_pos _ _ (Rmult_le_pos _ _ Hb Hb) Hqu). pose proof (Rmult_le_pos _ _ HMm Hb). nra. }
  set (X1 := g * (rho * X + INR n * e)) in *. set (M1 := g * (rho * rho * M + q + (INR n * rho + INR n) * e)) in *.
  assert (HX1 : 0 <= X1). { unfold X1. pose proof (Rmult_le_pos _ _ Hr HX). pose proof (Rmult_le_pos _ _ HN (Rlt_le _ _ He)). apply Rmult_le_pos; lra. }
  assert (HM1 : 0 <= M1). { unfold M1. pose proof (Rmult_le_pos _ _ (Rmult_le_pos _ _ Hr Hr) HM). pose proof (Rmult_le_pos _ _ HN Hr). apply Rmult_le_pos; nra. }
  
  assert (LE : forall a d Y, 0 <= a -> 0 <= d -> g * (a + d) <= Y -> a <= Y) by (intros a d Y Ha Hd HY; nra).
  assert (LX : X1 <= X) by (exact (LE _ _ _ HX1 D1 K1)). assert (LM : M1 <= M) by (exact (LE _ _ _ HM1 D2 K3)).
  destruct (predict_lv n f rho q X M g Hn Vf Ff) as (f1 & E1 & Vf1 & (SA & SQ) & Ff1 & Ix1 & IP1 & HX' & HP'); try (rewrite ?EA, ?EQ; assumption).
  { apply G_pow. lia. } { fold X1. lra. } { eapply Rle_lt_trans with M1; [right; unfold M1; ring|lra]. }
  rewrite EA in SA. rewrite EQ in SQ. rewrite EA in HX'. rewrite EA, EQ in HP'.
  assert (Bx1 : at_most n 1 (kf_x f1) X1). { intros i j Hi Hj. assert (j = 0)%nat by lia. subst j. apply HX', Hi. }
  assert (BP1 : at_most n n (kf_P f1) M1). { intros i j Hi Hj. eapply Rle_trans; [apply HP'; auto|]. right. unfold M1. ring. }
  unfold turn_err, turn_cov_err. cbv zeta. fold g.
  destruct t as [v|]; unfold turn_ops; cbn [run step w_kf w_ct]; rewrite E1; cbn [bind run step set_kf w_kf w_ct w_ob nth_error].
  - destruct Ht as (L & Fv & Iv & Bv). set (k1 := mk_ctl (ct_B k) (put (ct_u k) v) (ct_Q k) (ct_BQ k)). unfold set_ct, set_kf. cbn [w_kf w_ct w_ob upd run step nth_error bind].
    pose proof (put_u k v Vk L) as PU. assert (PR : forall i, (i < m)%nat -> rcell 1 (ct_u k1) i 0 = rcell 1 v i 0) by (intros i Hi; unfold rcell; cbn [k1 ct_u]; rewrite (PU i Hi); reflexivity).
    assert (Vk1 : ct_valid c n m k1). { destruct Vk as (V1 & V2 & V3 & V4). repeat split; cbn [k1 ct_B ct_u ct_Q ct_BQ]; try apply V1; try apply V3; try apply V4; apply (put_valid c m 1 _ v V2). }
    assert (Fk1 : ct_all_format prec emax k1). { destruct Fk as ((F1 & F2 & F3) & F4). repeat split; cbn [k1 ct_B ct_u ct_Q ct_BQ]; auto. apply put_fmt; auto. }
    destruct (control_lv n m k1 f1 beta U qu X1 M1 g Hn Hm Vf1 Vk1 Ff1 Fk1) as (k2 & f2 & E2 & Vf2 & (SA2 & SQ2) & Ff2 & Vk2 & (SB2 & Su2 & SQu2) & Fk2 & Ix2 & IP2 & HX2 & HP2); try (cbn [k1 ct_B ct_Q]; rewrite ?EB, ?EQu; assumption).
    { intros i j Hi Hj. assert (j = 0)%nat by lia. subst j. cbn [k1 ct_u]. rewrite (PU i Hi). apply Iv; auto. }
    { intros i j Hi Hj. assert (j = 0)%nat by lia. subst j. rewrite (PR i Hi). apply Bv; auto. }
    { apply G_pow. lia. } { lra. } { lra. }
    change (ct_B k1) with (ct_B k) in *. change (ct_Q k1) with (ct_Q k) in *. rewrite EB in *. rewrite EQu in *.
    rewrite E2. unfold set_ct, set_kf. cbn [bind w_kf w_ct w_ob upd run]. eexists. split; [reflexivity|].
    assert (Bx2 : at_most n 1 (kf_x f2) X). { intros i j Hi Hj. assert (j = 0)%nat by lia. subst j. eapply Rle_trans; [apply HX2, Hi|]. eapply Rle_trans; [|exact K1]. right. ring. }
    assert (BP2 : at_most n n (kf_P f2) M). { intros i j Hi Hj. eapply Rle_trans; [apply HP2; auto|]. eapply Rle_trans; [|exact K3]. right. ring. }
    split; [exists k2, cs; cbn [w_kf w_ct]; repeat (split; [first [assumption|congruence]|]); assumption|].
    cbn [st fst snd w_kf ideal_turn]. split.
    + intros i Hi. destruct (HX2 i Hi) as (T2 & _). destruct (HX' i Hi) as (T1 & _).
      rewrite (rsum_ext m _ (fun l => rcell m B i l * rcell 1 v l 0)) in T2 by (intros l Hl; rewrite (PR l Hl); reflexivity).
      set (x2 := rcell 1 (kf_x f2) i 0) in *. set (x1 := rcell 1 (kf_x f1) i 0) in *. set (a := rsum n _) in *. set (b := rsum m _) in *.
      replace (x2 - (a + b)) with ((x1 - a) + (x2 - (x1 + b))) by ring. eapply Rle_trans; [apply Rabs_triang|]. nra.
    + intros i j Hi Hj. destruct (HP2 i j Hi Hj) as (T2 & _). destruct (HP' i j Hi Hj) as (T1 & _).
      set (x2 := rcell n (kf_P f2) i j) in *. set (x1 := rcell n (kf_P f1) i j) in *. set (a := pred_P _ _ _ _ _ _) in *. set (b := rsum m _) in *.
      replace (x2 - (a + b)) with ((x1 - a) + (x2 - (x1 + b))) by ring. eapply Rle_trans; [apply Rabs_triang|]. nra.
  - unfold set_kf. cbn [w_ct w_ob]. eexists. split; [reflexivity|].
    assert (Bx2 : at_most n 1 (kf_x f1) X) by (intros i j Hi Hj; eapply Rle_trans; [apply Bx1; auto|exact LX]).
    assert (BP2 : at_most n n (kf_P f1) M) by (intros i j Hi Hj; eapply Rle_trans; [apply BP1; auto|exact LM]).
    split; [exists k, cs; cbn [w_kf w_ct]; repeat (split; [first [assumption|congruence]|]); assumption|].
    assert (S1 : 0 <= (g - 1) * (X + beta * U) + g * INR m * e). { pose proof (Rmult_le_pos _ _ Hb HU). pose proof (Rmult_le_pos _ _ HMm (Rlt_le _ _ He)). apply Rplus_le_le_0_compat; [|rewrite Rmult_assoc]; apply Rmult_le_pos; lra. }
    assert (S2 : 0 <= (g - 1) * (M + beta * beta * qu) + g * (INR m * beta + INR m) * e).
    { pose proof (Rmult_le_pos _ _ (Rmult_le_pos _ _ Hb Hb) Hqu). pose proof (Rmult_le_pos _ _ HMm Hb). apply Rplus_le_le_0_compat; [apply Rmult_le_pos; lra|]. apply Rmult_le_pos; [apply Rmult_le_pos|]; lra. }
    cbn [st fst snd w_kf ideal_turn]. split.
    + intros i Hi. destruct (HX' i Hi) as (T1 & _). rewrite Rplus_0_r. lra.
    + intros i j Hi Hj. destruct (HP' i j Hi Hj) as (T1 & _). rewrite Rplus_0_r. lra.
Qed.

Lemma run_app w os1 os2 : run c NN n w (os1 ++ os2) = bind (run c NN n w os1) (fun w' => run c NN n w' os2).
Proof.
  revert w. induction os1 as [|o os IH]; intros w; cbn [app run]; [reflexivity|]. destruct (step c NN n w o) as [w'|p]; cbn [bind]; [apply IH|reflexivity].
Qed.
Lemma turns_level ts w : level w -> Forall (turn_ok prec emax m U) ts -> exists w', run c NN n w (turns_ops ts) = Ok w' /\ level w'.
Proof.
  revert w. induction ts as [|t ts IH]; intros w L H; [exists w; split; [reflexivity|exact L]|]. inversion H; subst.
  destruct (turn_lv w t L) as (w1 & E1 & L1 & _); [assumption|]. destruct (IH w1 L1) as (w2 & E2 & L2); [assumption|].
  exists w2. split; [|exact L2]. unfold turns_ops. cbn [flat_map]. rewrite run_app, E1. exact E2.
Qed.

Lemma ideal_near t s1 s2 dx dP : (forall i, (i < n)%nat -> Rabs (fst s1 i - fst s2 i) <= dx) -> (forall i j, (i < n)%nat -> (j < n)%nat -> Rabs (snd s1 i j - snd s2 i j) <= dP) ->
  0 <= dx -> 0 <= dP -> 0 <= rho ->
  (forall i, (i < n)%nat -> Rabs (fst (ideal_turn n m rA rQ rB rQu t s1) i - fst (ideal_turn n m rA rQ rB rQu t s2) i) <= rho * dx) /\
  (forall i j, (i < n)%nat -> (j < n)%nat -> Rabs (snd (ideal_turn n m rA rQ rB rQu t s1) i j - snd (ideal_turn n m rA rQ rB rQu t s2) i j) <= rho * rho * dP).
Proof.
  intros H1 H2 D1 D2 Hr. cbn [ideal_turn fst snd]. split.
  - intros i Hi. set (b := match t with Some _ => _ | None => _ end).
    replace (_ - _) with (rsum n (fun k => rA i k * fst s1 k) - rsum n (fun k => rA i k * fst s2 k)) by ring. rewrite rsum_minus.
    rewrite (rsum_ext n _ (fun k => rA i k * (fst s1 k - fst s2 k))) by (intros; ring). apply dot_abs_le; auto.
  - intros i j Hi Hj. set (b := match t with Some _ => _ | None => _ end). unfold pred_P.
    replace (_ - _) with (rsum n (fun k => rsum n (fun l => rA i l * snd s1 l k) * rA j k) - rsum n (fun k => rsum n (fun l => rA i l * snd s2 l k) * rA j k)) by ring. rewrite rsum_minus.
    rewrite (rsum_ext n _ (fun k => rsum n (fun l => rA i l * (snd s1 l k - snd s2 l k)) * rA j k)).
    + apply (mat_abs_le n n (fun _ l => rA i l) (fun k l => snd s1 l k - snd s2 l k) (rA j)); auto.
    + intros k Hk. rewrite <- Rmult_minus_distr_r, rsum_minus. f_equal. apply rsum_ext. intros. ring.
Qed.

Lemma turns_near ts w s dx dP : level w -> Forall (turn_ok prec emax m U) ts -> 0 <= rho ->
  (forall i, (i < n)%nat -> Rabs (fst (st w) i - fst s i) <= dx) -> (forall i j, (i < n)%nat -> (j < n)%nat -> Rabs (snd (st w) i j - snd s i j) <= dP) ->
  rho * dx + turn_err prec emax n m rho beta U X <= dx -> rho * rho * dP + turn_cov_err prec emax n m rho beta q qu M <= dP ->
  exists w', run c NN n w (turns_ops ts) = Ok w' /\
  (forall i, (i < n)%nat -> Rabs (fst (st w') i - fst (ideal n m rA rQ rB rQu ts s) i) <= dx) /\
  (forall i j, (i < n)%nat -> (j < n)%nat -> Rabs (snd (st w') i j - snd (ideal n m rA rQ rB rQu ts s) i j) <= dP).
Proof.
  revert w s. induction ts as [|t ts IH]; intros w s L H Hr Dx DP Cx CP; [exists w; split; [reflexivity|split; assumption]|]. inversion H; subst.
  destruct (turn_lv w t L) as (w1 & E1 & L1 & T1 & T2); [assumption|].
  assert (Zx : 0 <= dx) by (eapply Rle_trans; [apply Rabs_pos|apply (Dx 0%nat); lia]). assert (ZP : 0 <= dP) by (eapply Rle_trans; [apply Rabs_pos|apply (DP 0%nat 0%nat); lia]).
  destruct (ideal_near t (st w) s dx dP Dx DP Zx ZP Hr) as (N1 & N2).
  destruct (IH w1 (ideal_turn n m rA rQ rB rQu t s)) as (w2 & E2 & R1 & R2); auto.
  - intros i Hi. specialize (T1 i Hi). specialize (N1 i Hi). set (a := fst (st w1) i) in *. set (b := fst (ideal_turn _ _ _ _ _ _ _ (st w)) i) in *. set (d := fst (ideal_turn _ _ _ _ _ _ _ s) i) in *.
    replace (a - d) with ((a - b) + (b - d)) by ring. eapply Rle_trans; [apply Rabs_triang|]. lra.
  - intros i j Hi Hj. specialize (T2 i j Hi Hj). specialize (N2 i j Hi Hj). set (a := snd (st w1) i j) in *. set (b := snd (ideal_turn _ _ _ _ _ _ _ (st w)) i j) in *. set (d := snd (ideal_turn _ _ _ _ _ _ _ s) i j) in *.
    replace (a - d) with ((a - b) + (b - d)) by ring. eapply Rle_trans; [apply Rabs_triang|]. lra.
  - exists w2. split; [|split; [exact R1|exact R2]]. unfold turns_ops. cbn [flat_map]. rewrite run_app, E1. exact E2.
Qed.
End Stable.

Lemma setup_level c prec emax n m f k rho beta U q qu X M cs obs : stable_setup c prec emax n m f k rho beta U q qu X M ->
  level c prec emax n m (kf_A f) (kf_Q f) (ct_B k) (ct_Q k) X M (mk_world f ((m, k) :: cs) obs).
Proof. intros (H1 & H2 & H3 & H4 & H5 & H6 & H7 & H8 & H9 & H10 & H11 & H12 & H13 & H14 & H15 & H16 & H17). exists k, cs. repeat (split; [first [assumption|reflexivity]|]). assumption. Qed.

Theorem stable_forever : forall (c : cfg) (prec emax : Z) (sz : bool), format_ok prec emax -> forall (n m : nat) (f : kalman spec_float) (k : control spec_float) (rho beta U q qu X M : R),
  (1 <= n)%nat -> (1 <= m)%nat -> stable_setup c prec emax n m f k rho beta U q qu X M -> keeps prec emax n m rho beta U q qu X M ->
  forall (cs : list (nat * control spec_float)) (obs : list (nat * observation spec_float)) (ts : list turn), Forall (turn_ok prec emax m U) ts ->
  exists w', run c (sf_num prec emax sz) n (mk_world f ((m, k) :: cs) obs) (turns_ops ts) = Ok w' /\
    fin_matrix n 1 (kf_x (w_kf w')) /\ at_most n 1 (kf_x (w_kf w')) X /\ fin_matrix n n (kf_P (w_kf w')) /\ at_most n n (kf_P (w_kf w')) M.
Proof.
  intros c prec emax sz HF n m f k rho beta U q qu X M Hn Hm HS HK cs obs ts Hts. pose proof (setup_level _ _ _ _ _ _ _ _ _ _ _ _ _ _ cs obs HS) as L.
  destruct HS as (H1 & H2 & H3 & H4 & H5 & H6 & H7 & H8 & H9 & H10 & H11 & H12 & H13 & _).
  destruct (turns_level c prec emax sz HF n m (kf_A f) (kf_Q f) (ct_B k) (ct_Q k) rho beta U q qu X M Hn Hm H13 HK H5 H6 H7 H8 H9 H10 H11 H12 ts _ L Hts) as (w' & E & L').
  exists w'. split; [exact E|]. destruct L' as (k' & cs' & _ & _ & _ & _ & _ & _ & _ & _ & _ & I1 & I2 & I3 & I4). auto.
Qed.

Theorem stable_error : forall (c : cfg) (prec emax : Z) (sz : bool), format_ok prec emax -> forall (n m : nat) (f : kalman spec_float) (k : control spec_float) (rho beta U q qu X M : R),
  (1 <= n)%nat -> (1 <= m)%nat -> stable_setup c prec emax n m f k rho beta U q qu X M -> keeps prec emax n m rho beta U q qu X M -> rho < 1 ->
  forall (cs : list (nat * control spec_float)) (obs : list (nat * observation spec_float)) (ts : list turn), Forall (turn_ok prec emax m U) ts ->
  let exact := ideal n m (rcell n (kf_A f)) (rcell n (kf_Q f)) (rcell m (ct_B k)) (rcell m (ct_Q k)) ts (fun i => rcell 1 (kf_x f) i 0, rcell n (kf_P f)) in
  exists w', run c (sf_num prec emax sz) n (mk_world f ((m, k) :: cs) obs) (turns_ops ts) = Ok w' /\
    (forall i, (i < n)%nat -> Rabs (rcell 1 (kf_x (w_kf w')) i 0 - fst exact i) <= turn_err prec emax n m rho beta U X / (1 - rho)) /\
    (forall i j, (i < n)%nat -> (j < n)%nat -> Rabs (rcell n (kf_P (w_kf w')) i j - snd exact i j) <= turn_cov_err prec emax n m rho beta q qu M / (1 - rho * rho)).
Proof.
  intros c prec emax sz HF n m f k rho beta U q qu X M Hn Hm HS HK Hr1 cs obs ts Hts exact. pose proof (setup_level _ _ _ _ _ _ _ _ _ _ _ _ _ _ cs obs HS) as L.
  destruct HS as (H1 & H2 & H3 & H4 & H5 & H6 & H7 & H8 & H9 & H10 & H11 & H12 & H13 & H14 & H15 & H16 & H17).
  pose proof (rows_pos _ _ _ _ Hn H9) as Hr. pose proof (rows_pos _ _ _ _ Hn H11) as Hb. pose proof (at_most_pos _ _ _ _ Hn (le_n 1) H15) as HX. pose proof (at_most_pos _ _ _ _ Hn Hn H17) as HM.
  pose proof (at_most_pos _ _ _ _ Hn Hn H10) as Hq. pose proof (at_most_pos _ _ _ _ Hm Hm H12) as Hqu.
  pose proof (eta_pos prec emax) as He. pose proof (pos_INR n) as HN. pose proof (pos_INR m) as HMm. pose proof (G1 prec n m Hn Hm) as HG.
  assert (T1 : 0 <= turn_err prec emax n m rho beta U X).
  { unfold turn_err. cbv zeta. pose proof (Rmult_le_pos _ _ Hr HX). pose proof (Rmult_le_pos _ _ Hb H13). repeat apply Rplus_le_le_0_compat; repeat apply Rmult_le_pos; lra. }
  assert (T2 : 0 <= turn_cov_err prec emax n m rho beta q qu M).
  { unfold turn_cov_err. cbv zeta. pose proof (Rmult_le_pos _ _ (Rmult_le_pos _ _ Hr Hr) HM). pose proof (Rmult_le_pos _ _ (Rmult_le_pos _ _ Hb Hb) Hqu). pose proof (Rmult_le_pos _ _ HN Hr). pose proof (Rmult_le_pos _ _ HMm Hb).
    repeat apply Rplus_le_le_0_compat; apply Rmult_le_pos; try apply Rmult_le_pos; lra. }
  set (t1 := turn_err _ _ _ _ _ _ _ _) in *. set (t2 := turn_cov_err _ _ _ _ _ _ _ _ _) in *.
  assert (Hrr : rho * rho < 1) by nra.
  assert (D1 : 0 <= t1 / (1 - rho)) by (apply Rmult_le_pos; [exact T1|left; apply Rinv_0_lt_compat; lra]). assert (D2 : 0 <= t2 / (1 - rho * rho)) by (apply Rmult_le_pos; [exact T2|left; apply Rinv_0_lt_compat; lra]).
  apply (turns_near c prec emax sz HF n m (kf_A f) (kf_Q f) (ct_B k) (ct_Q k) rho beta U q qu X M Hn Hm H13 HK H5 H6 H7 H8 H9 H10 H11 H12 ts _ (fun i => rcell 1 (kf_x f) i 0, rcell n (kf_P f)) _ _ L Hts Hr).
  - intros i Hi. cbn. rewrite Rminus_diag_eq by reflexivity. rewrite Rabs_R0. exact D1.
  - intros i j Hi Hj. cbn. rewrite Rminus_diag_eq by reflexivity. rewrite Rabs_R0. exact D2.
  - fold t1. right. field. lra.
  - fold t2. right. field. lra.
Qed.
