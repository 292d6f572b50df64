(** * Proofs for SpecBits.v: filter steps, operation by operation, for every element type *)
From Coq Require Import Lia.
From Verif Require Import Spec SpecBits Matrix Filter Extended SpecFilter Wp Kernels Access Chol CholFail Inv FilterGen FilterTwo.

Section Bits.
Context {T : Type} (c : cfg) (N : num T).

Lemma cellwise_out R C (old : list T) g r l : valid c R C old -> cellwise R C old g r -> r = Ok l ->
  valid c R C l /\ same_tail R C old l /\ forall i j, i < R -> j < C -> exists v, cell C old i j = Some v /\ cell C l i j = g i j v.
Proof.
  intros V H ->. destruct H as (L & H & HT). split; [exact (valid_length c R C old l V L)|]. split; [split; auto|].
  intros i j Hi Hj. pose proof (cell_total c R C old i j V Hi Hj) as Hv. destruct (cell C old i j) as [v|] eqn:E; [|congruence].
  exists v. split; [reflexivity|]. apply H; auto.
Qed.

Lemma dot_ext K : forall f g f' g', (forall k, k < K -> f k = f' k) -> (forall k, k < K -> g k = g' k) -> dot N K f g = dot N K f' g'.
Proof. induction K as [|K IH]; intros f g f' g' Hf Hg; cbn [dot]; [reflexivity|]. rewrite (IH f g f' g'), Hf, Hg; auto. Qed.
Lemma dot1_ext K : forall f g f' g', (forall k, k < K -> f k = f' k) -> (forall k, k < K -> g k = g' k) -> dot1 N K f g = dot1 N K f' g'.
Proof.
  induction K as [|[|K] IH]; intros f g f' g' Hf Hg; [reflexivity| |].
  - cbn [dot1]. rewrite Hf, Hg by lia. reflexivity.
  - change (dot1 N (S (S K)) f g) with (obind (dot1 N (S K) f g) (fun acc => obind (f (S K)) (fun u => obind (g (S K)) (fun v => obind (o_mul N u v) (fun p => o_add N acc p))))).
    change (dot1 N (S (S K)) f' g') with (obind (dot1 N (S K) f' g') (fun acc => obind (f' (S K)) (fun u => obind (g' (S K)) (fun v => obind (o_mul N u v) (fun p => o_add N acc p))))).
    rewrite (IH f g f' g'), Hf, Hg; auto.
Qed.

(** take the next call apart *)
Ltac step H l E := match type of H with bind ?m _ = Ok _ => destruct m as [l|] eqn:E; cbn [bind] in H; [|discriminate] end.
Ltac out E L V S C := let H := fresh in pose proof L as H; eapply cellwise_out in H; [|eassumption|exact E]; destruct H as (V & S & C).

(** ** predict *)
Lemma predict_x_bits n (f f' : kalman T) : 1 <= n -> kf_valid c n f -> predict_x c N n f = Ok f' ->
  (forall i, i < n -> cell 1 (kf_x f') i 0 = b_prodv N n (cell n (kf_A f)) (cell 1 (kf_x f)) i 0) /\
  kf_valid c n f' /\ kf_P f' = kf_P f /\ kf_A f' = kf_A f /\ kf_Q f' = kf_Q f.
Proof.
  intros Hn (VA & Vx & VP & VQ & Vpx & VtP) H. unfold predict_x in H. step H px E1. step H x E2. injection H as <-. cbn.
  out E1 (mult_rowvector_cellwise c N n n (kf_A f) (kf_x f) (kf_px f) Hn VA Vx Vpx) V1 S1 C1.
  out E2 (copy_to_cellwise c n 1 px (kf_x f) Hn (le_n 1) V1 Vx) V2 S2 C2.
  split; [|split; [unfold kf_valid; cbn; tauto|auto]]. intros i Hi. destruct (C2 i 0 Hi (le_n 1)) as (v & _ & ->). destruct (C1 i 0 Hi (le_n 1)) as (v' & _ & ->). reflexivity.
Qed.

Lemma predict_P_bits n (f f' : kalman T) : 1 <= n -> kf_valid c n f -> predict_P c N n f = Ok f' ->
  kf_x f' = kf_x f /\
  forall i j, i < n -> j < n -> cell n (kf_P f') i j =
    b_add N (b_prodt N n (b_prod N n (cell n (kf_A f)) (cell n (kf_P f))) (cell n (kf_A f)) i j) (cell n (kf_Q f) i j).
Proof.
  intros Hn (VA & Vx & VP & VQ & Vpx & VtP) H. unfold predict_P in H. step H tP E1. step H P1 E2. step H P2 E3. injection H as <-. cbn.
  out E1 (mult_cellwise c N n n n (kf_A f) (kf_P f) (kf_tP f) VA VP VtP) V1 S1 C1.
  out E2 (mult_transb_cellwise c N n n n tP (kf_A f) (kf_P f) V1 VA VP) V2 S2 C2.
  out E3 (add_inplace_b_cellwise c N n n (kf_Q f) P1 VQ V2) V3 S3 C3.
  split; [reflexivity|]. intros i j Hi Hj. destruct (C3 i j Hi Hj) as (v & E & ->). destruct (C2 i j Hi Hj) as (w & _ & Ew). rewrite E in Ew.
  unfold b_add, b_prodt. rewrite <- (dot_ext n (fun k => cell n tP i k) (fun k => cell n (kf_A f) j k)); [rewrite <- Ew; reflexivity| |auto].
  intros k Hk. destruct (C1 i k Hi Hk) as (? & _ & ->). reflexivity.
Qed.

Lemma predict_P_tuned_bits n lambda (f f' : kalman T) : 1 <= n -> kf_valid c n f -> predict_P_tuned c N n lambda f = Ok f' ->
  kf_x f' = kf_x f /\
  exists l2 factor, o_mul N lambda lambda = Some l2 /\ o_recip N l2 = Some factor /\
  forall i j, i < n -> j < n -> cell n (kf_P f') i j =
    b_add N (b_mul N (b_prodt N n (b_prod N n (cell n (kf_A f)) (cell n (kf_P f))) (cell n (kf_A f)) i j) (Some factor)) (cell n (kf_Q f) i j).
Proof.
  intros Hn (VA & Vx & VP & VQ & Vpx & VtP) H. unfold predict_P_tuned in H. step H l2 El. step H fac Ef. step H tP E1. step H P1 E2. step H P2 E3. injection H as <-. cbn.
  out E1 (mult_cellwise c N n n n (kf_A f) (kf_P f) (kf_tP f) VA VP VtP) V1 S1 C1.
  out E2 (multscale_transb_cellwise c N fac n n n tP (kf_A f) (kf_P f) V1 VA VP) V2 S2 C2.
  out E3 (add_inplace_b_cellwise c N n n (kf_Q f) P1 VQ V2) V3 S3 C3.
  split; [reflexivity|]. exists l2, fac.
  split; [unfold n_mul, of_opt in El; destruct (o_mul N lambda lambda); congruence|].
  split; [unfold n_recip, of_opt in Ef; destruct (o_recip N l2); congruence|].
  intros i j Hi Hj. destruct (C3 i j Hi Hj) as (v & E & ->). destruct (C2 i j Hi Hj) as (w & _ & Ew). rewrite E in Ew.
  unfold b_add, b_mul, b_prodt.
  rewrite <- (dot_ext n (fun k => cell n tP i k) (fun k => cell n (kf_A f) j k)); [cbn [obind]; rewrite <- Ew; reflexivity| |auto].
  intros k Hk. destruct (C1 i k Hi Hk) as (? & _ & ->). reflexivity.
Qed.

Lemma predict_bits n (f f' : kalman T) : 1 <= n -> kf_valid c n f -> predict c N n f = Ok f' ->
  (forall i, i < n -> cell 1 (kf_x f') i 0 = b_prodv N n (cell n (kf_A f)) (cell 1 (kf_x f)) i 0) /\
  (forall i j, i < n -> j < n -> cell n (kf_P f') i j =
    b_add N (b_prodt N n (b_prod N n (cell n (kf_A f)) (cell n (kf_P f))) (cell n (kf_A f)) i j) (cell n (kf_Q f) i j)).
Proof.
  intros Hn Hf H. unfold predict in H. step H g E. destruct (predict_x_bits n f g Hn Hf E) as (Hx & Vg & EP & EA & EQ).
  destruct (predict_P_bits n g f' Hn Vg H) as (-> & HP). rewrite EP, EA, EQ in HP. auto.
Qed.
Lemma predict_tuned_bits n lambda (f f' : kalman T) : 1 <= n -> kf_valid c n f -> predict_tuned c N n lambda f = Ok f' ->
  (forall i, i < n -> cell 1 (kf_x f') i 0 = b_prodv N n (cell n (kf_A f)) (cell 1 (kf_x f)) i 0) /\
  exists l2 factor, o_mul N lambda lambda = Some l2 /\ o_recip N l2 = Some factor /\
  (forall i j, i < n -> j < n -> cell n (kf_P f') i j =
    b_add N (b_mul N (b_prodt N n (b_prod N n (cell n (kf_A f)) (cell n (kf_P f))) (cell n (kf_A f)) i j) (Some factor)) (cell n (kf_Q f) i j)).
Proof.
  intros Hn Hf H. unfold predict_tuned in H. step H g E. destruct (predict_x_bits n f g Hn Hf E) as (Hx & Vg & EP & EA & EQ).
  destruct (predict_P_tuned_bits n lambda g f' Hn Vg H) as (-> & l2 & fac & H1 & H2 & HP). rewrite EP, EA, EQ in HP. split; [auto|]. exists l2, fac. auto.
Qed.

(** ** the extended filter: x is what the closure wrote *)
Lemma predict_x_nl_bits n st (f f' : kalman T) : 1 <= n -> kf_valid c n f -> predict_x_nonlinear c n st f = Ok f' ->
  (forall out, st (kf_x f) (kf_px f) = Ok out -> valid c n 1 out) ->
  (exists out, st (kf_x f) (kf_px f) = Ok out /\ forall i, i < n -> cell 1 (kf_x f') i 0 = cell 1 out i 0) /\
  kf_valid c n f' /\ kf_P f' = kf_P f /\ kf_A f' = kf_A f /\ kf_Q f' = kf_Q f.
Proof.
  intros Hn (VA & Vx & VP & VQ & Vpx & VtP) H Hst. unfold predict_x_nonlinear in H. step H px E1. step H x E2. injection H as <-. cbn.
  specialize (Hst px eq_refl).
  out E2 (copy_to_cellwise c n 1 px (kf_x f) Hn (le_n 1) Hst Vx) V2 S2 C2.
  split; [|split; [unfold kf_valid; cbn; tauto|auto]]. exists px. split; [reflexivity|]. intros i Hi. destruct (C2 i 0 Hi (le_n 1)) as (v & _ & ->). reflexivity.
Qed.
Lemma predict_nl_bits n st (f f' : kalman T) : 1 <= n -> kf_valid c n f ->
  (forall out, st (kf_x f) (kf_px f) = Ok out -> valid c n 1 out) -> predict_nonlinear c N n st f = Ok f' ->
  (exists out, st (kf_x f) (kf_px f) = Ok out /\ forall i, i < n -> cell 1 (kf_x f') i 0 = cell 1 out i 0) /\
  (forall i j, i < n -> j < n -> cell n (kf_P f') i j =
    b_add N (b_prodt N n (b_prod N n (cell n (kf_A f)) (cell n (kf_P f))) (cell n (kf_A f)) i j) (cell n (kf_Q f) i j)).
Proof.
  intros Hn Hf Hst H. unfold predict_nonlinear in H. step H g E. destruct (predict_x_nl_bits n st f g Hn Hf E Hst) as (Hx & Vg & EP & EA & EQ).
  destruct (predict_P_bits n g f' Hn Vg H) as (-> & HP). rewrite EP, EA, EQ in HP. auto.
Qed.
Lemma predict_tuned_nl_bits n lambda st (f f' : kalman T) : 1 <= n -> kf_valid c n f ->
  (forall out, st (kf_x f) (kf_px f) = Ok out -> valid c n 1 out) -> predict_tuned_nonlinear c N n lambda st f = Ok f' ->
  (exists out, st (kf_x f) (kf_px f) = Ok out /\ forall i, i < n -> cell 1 (kf_x f') i 0 = cell 1 out i 0) /\
  exists l2 factor, o_mul N lambda lambda = Some l2 /\ o_recip N l2 = Some factor /\
  (forall i j, i < n -> j < n -> cell n (kf_P f') i j =
    b_add N (b_mul N (b_prodt N n (b_prod N n (cell n (kf_A f)) (cell n (kf_P f))) (cell n (kf_A f)) i j) (Some factor)) (cell n (kf_Q f) i j)).
Proof.
  intros Hn Hf Hst H. unfold predict_tuned_nonlinear in H. step H g E. destruct (predict_x_nl_bits n st f g Hn Hf E Hst) as (Hx & Vg & EP & EA & EQ).
  destruct (predict_P_tuned_bits n lambda g f' Hn Vg H) as (-> & l2 & fac & H1 & H2 & HP). rewrite EP, EA, EQ in HP. split; [auto|]. exists l2, fac. auto.
Qed.

(** ** control *)
Lemma control_bits n m (k k' : control T) (f f' : kalman T) : 1 <= n -> 1 <= m -> kf_valid c n f -> ct_valid c n m k ->
  control_ c N n m k f = Ok (k', f') ->
  (forall i, i < n -> cell 1 (kf_x f') i 0 = b_add N (cell 1 (kf_x f) i 0) (b_prodv N m (cell m (ct_B k)) (cell 1 (ct_u k)) i 0)) /\
  (forall i j, i < n -> j < n -> cell n (kf_P f') i j =
    b_add N (cell n (kf_P f) i j) (b_prodt N m (b_prod N m (cell m (ct_B k)) (cell m (ct_Q k))) (cell m (ct_B k)) i j)).
Proof.
  intros Hn Hm (VA & Vx & VP & VQ & Vpx & VtP) (VB & Vu & VQc & VBQ) H. unfold control_, apply_control in H.
  rewrite (is_empty_valid c _ _ _ Vu) in H. cbn [bind] in H. rewrite Nat.mul_1_r in H.
  replace (m =? 0) with false in H by (symmetry; apply Nat.eqb_neq; lia). rewrite (is_empty_valid c _ _ _ VB) in H. cbn [bind] in H.
  replace (n * m =? 0) with false in H by (symmetry; apply Nat.eqb_neq; nia).
  step H r E. destruct r as [[k1 x1] P1]. injection H as <- <-. step E x E1. step E BQ E2. step E P E3. injection E as <- <- <-. cbn.
  out E1 (multadd_rowvector_cellwise c N n m (ct_B k) (ct_u k) (kf_x f) Hm VB Vu Vx) V1 S1 C1.
  out E2 (mult_cellwise c N n m m (ct_B k) (ct_Q k) (ct_BQ k) VB VQc VBQ) V2 S2 C2.
  out E3 (multadd_transb_cellwise c N n m n BQ (ct_B k) (kf_P f) V2 VB VP) V3 S3 C3.
  split.
  - intros i Hi. destruct (C1 i 0 Hi (le_n 1)) as (v & -> & ->). reflexivity.
  - intros i j Hi Hj. destruct (C3 i j Hi Hj) as (v & -> & ->). cbn [b_add obind]. unfold b_prodt.
    rewrite (dot_ext m (fun q => cell m BQ i q) (fun q => cell m (ct_B k) j q) (b_prod N m (cell m (ct_B k)) (cell m (ct_Q k)) i) (fun q => cell m (ct_B k) j q)); auto.
    intros q Hq. destruct (C2 i q Hi Hq) as (? & _ & ->). reflexivity.
Qed.

(** ** decomposition and inversion *)
Lemma chol_col_b n (A L : list T) i : chol_col N n A L i <-> b_column N n (cell n A) (cell n L) i.
Proof.
  split.
  - intros (d & s & l & H1 & H2 & H3 & H4 & H5 & H6). exists s, l, d. repeat split; auto; destruct (H6 j H) as (s' & v & G1 & G2 & G3); rewrite G3.
    + unfold csum in G1. rewrite G1. cbn. auto.
    + discriminate.
  - intros (s & l & d & H1 & H2 & H3 & H4 & H5 & H6). exists d, s, l. repeat split; auto. intros j Hj. destruct (H6 j Hj) as (G1 & G2).
    unfold csum. destruct (obind (cell n A i j) _) as [s'|]; [|cbn in G1; congruence]. cbn in G1. destruct (o_mul N s' d) as [v|] eqn:E; [|congruence].
    exists s', v. auto.
Qed.

Lemma cholesky_bits n (A : list T) b L : 1 <= n -> valid c n n A -> cholesky_decompose_lower c N n n A = Ok (b, L) ->
  same_tail n n A L /\
  if b then b_factor N n (cell n A) (cell n L) else b_no_factor N n (cell n A) (cell n L).
Proof.
  intros Hn HA H. pose proof (cholesky_spec c N n A Hn HA) as HS. rewrite H in HS. destruct b.
  - destruct HS as (ST & HC & HU). split; [exact ST|]. split; [intros i Hi; apply chol_col_b; auto|]. intros i j Hij. apply HU. auto.
  - destruct (cholesky_left c N n A L Hn HA H) as (ST & i & s & d & v & Hi & HC & H1 & H2 & H3 & H4 & H5 & H6). split; [exact ST|]. exists i, s, d.
    split; [auto|]. split; [intros i' Hi'; apply chol_col_b; auto|]. split; [exact H1|]. split; [exact H2|]. split; [exact H3|]. split; [congruence|]. split; [congruence|]. exact H6.
Qed.

Lemma invert_bits n (mat inv0 X : list T) : 1 <= n -> valid c n n mat -> valid c n n inv0 -> invert_l_cholesky c N n mat inv0 = Ok X ->
  same_tail n n inv0 X /\ b_inverse N n (cell n mat) (cell n X).
Proof.
  intros Hn Hm Hv HX. pose proof (invert_spec c N n mat inv0 Hn Hm Hv) as H. rewrite HX in H. cbn [wp] in H.
  destruct H as (ST & Y & H1 & H2). split; [exact ST|]. exists (cell n Y). intros i Hi. destruct (H1 i Hi) as (l & r & E1 & E2 & G1).
  destruct (H2 i Hi) as (l' & r' & E1' & E2' & G2). rewrite E1 in E1'. injection E1' as <-. rewrite E2 in E2'. injection E2' as <-.
  exists r. rewrite E1. split; [exact E2|]. intros j Hj. destruct (G1 j Hj) as (s & w & v & F1 & F2 & F3 & F4).
  destruct (G2 j Hj) as (y & s2 & w2 & v2 & K0 & K1 & K2 & K3 & K4 & K5). rewrite K0 in F4. injection F4 as ->.
  unfold b_negsum. rewrite !Nat.add_1_r. unfold isum in *. rewrite F1, K1. cbn [b_add obind]. rewrite F2. cbn [b_mul obind]. rewrite F3, K0. cbn [obind b_add b_mul]. rewrite K2. cbn [obind b_mul]. rewrite K3, K4, K5. auto.
Qed.

(** ** correct *)
Lemma update_bits n m (o o' : observation T) (x P x' P' : list T) : 1 <= n -> 1 <= m -> ob_valid c n m o -> valid c n 1 x -> valid c n n P ->
  update_with_innovation c N n m o x P = Ok (o', x', P') ->
  exists S : list T,
  (forall i j, i < m -> j < m -> cell m S i j = b_add N (b_prodt N n (b_prod N n (cell n (ob_H o)) (cell n P)) (cell n (ob_H o)) i j) (cell m (ob_R o) i j)) /\
  (b_factor N m (cell m S) (cell m (ob_S o')) \/ b_no_factor N m (cell m S) (cell m (ob_S o'))) /\
  b_inverse N m (cell m (ob_S o')) (cell m (ob_Sinv o')) /\
  (forall i j, i < n -> j < m -> cell m (ob_K o') i j = b_prod N m (b_prodt N n (cell n P) (cell n (ob_H o))) (cell m (ob_Sinv o')) i j) /\
  (forall i, i < n -> cell 1 x' i 0 = b_add N (cell 1 x i 0) (b_prodv N m (cell m (ob_K o')) (cell 1 (ob_y o)) i 0)) /\
  (forall i j, i < n -> j < n -> cell n P' i j =
     b_sub N (cell n P i j) (b_prod N m (cell m (ob_K o')) (b_prod N n (cell n (ob_H o)) (cell n P)) i j)) /\
  ob_y o' = ob_y o.
Proof.
  intros Hn Hm (VH & Vz & VR & Vy & VS & VK & VSinv & VHP & VPHt & VKHP) Vx VP H. unfold update_with_innovation in H.
  step H HP E1. step H S1 E2. step H S2 E3. step H r E4. destruct r as [b L]. step H Sinv E5. step H PHt E6. step H K E7. step H x1 E8.
  step H HP2 E9. step H KHP E10. step H P1 E11. injection H as <- <- <-. cbn.
  out E1 (mult_cellwise c N m n n (ob_H o) P (ob_HP o) VH VP VHP) V1 T1 C1.
  out E2 (mult_transb_cellwise c N m n m HP (ob_H o) (ob_S o) V1 VH VS) V2 T2 C2.
  out E3 (add_inplace_a_cellwise c N m m S1 (ob_R o) V2 VR) V3 T3 C3.
  destruct (cholesky_bits m S2 b L Hm V3 E4) as (TL & HL).
  assert (VL : valid c m m L) by (eapply valid_length; [exact V3|apply TL]).
  destruct (invert_bits m L (ob_Sinv o) Sinv Hm VL VSinv E5) as (TI & HI).
  assert (VI : valid c m m Sinv) by (eapply valid_length; [exact VSinv|apply TI]).
  out E6 (mult_transb_cellwise c N n n m P (ob_H o) (ob_PHt o) VP VH VPHt) V6 T6 C6.
  out E7 (mult_cellwise c N n m m PHt Sinv (ob_K o) V6 VI VK) V7 T7 C7.
  out E8 (multadd_rowvector_cellwise c N n m K (ob_y o) x Hm V7 Vy Vx) V8 T8 C8.
  out E9 (mult_cellwise c N m n n (ob_H o) P HP VH VP V1) V9 T9 C9.
  out E10 (mult_cellwise c N n m n K HP2 (ob_KHP o) V7 V9 VKHP) V10 T10 C10.
  out E11 (sub_inplace_a_cellwise c N n n P KHP VP V10) V11 T11 C11.
  exists S2. split.
  { intros i j Hi Hj. destruct (C3 i j Hi Hj) as (v & E & ->). destruct (C2 i j Hi Hj) as (w & _ & Ew). rewrite E in Ew.
    unfold b_add, b_prodt. rewrite <- (dot_ext n (fun k => cell n HP i k) (fun k => cell n (ob_H o) j k)); [rewrite <- Ew; reflexivity| |auto].
    intros k Hk. destruct (C1 i k Hi Hk) as (? & _ & ->). reflexivity. }
  split; [destruct b; auto|]. split; [exact HI|]. split.
  { intros i j Hi Hj. destruct (C7 i j Hi Hj) as (v & _ & ->). unfold b_prod. apply dot_ext; [|auto]. intros k Hk. destruct (C6 i k Hi Hk) as (? & _ & ->). reflexivity. }
  split. { intros i Hi. destruct (C8 i 0 Hi (le_n 1)) as (v & -> & ->). reflexivity. }
  split; [|reflexivity].
  intros i j Hi Hj. destruct (C11 i j Hi Hj) as (v & -> & ->). destruct (C10 i j Hi Hj) as (w & _ & ->). unfold b_sub, b_prod. cbn [obind].
  rewrite (dot_ext m (fun k => cell m K i k) (fun k => cell n HP2 k j) (fun k => cell m K i k) (fun k => dot N n (fun k0 => cell n (ob_H o) k k0) (fun k0 => cell n P k0 j))); auto.
  intros k Hk. destruct (C9 k j Hk Hj) as (? & _ & ->). reflexivity.
Qed.

Lemma correct_bits n m (o o' : observation T) (f f' : kalman T) : 1 <= n -> 1 <= m -> ob_valid c n m o -> kf_valid c n f ->
  correct c N n m o f = Ok (o', f') ->
  (forall i, i < m -> cell 1 (ob_y o') i 0 = b_sub N (cell 1 (ob_z o) i 0) (b_prodv N n (cell n (ob_H o)) (cell 1 (kf_x f)) i 0)) /\
  exists S : list T,
  (forall i j, i < m -> j < m -> cell m S i j = b_add N (b_prodt N n (b_prod N n (cell n (ob_H o)) (cell n (kf_P f))) (cell n (ob_H o)) i j) (cell m (ob_R o) i j)) /\
  (b_factor N m (cell m S) (cell m (ob_S o')) \/ b_no_factor N m (cell m S) (cell m (ob_S o'))) /\
  b_inverse N m (cell m (ob_S o')) (cell m (ob_Sinv o')) /\
  (forall i j, i < n -> j < m -> cell m (ob_K o') i j = b_prod N m (b_prodt N n (cell n (kf_P f)) (cell n (ob_H o))) (cell m (ob_Sinv o')) i j) /\
  (forall i, i < n -> cell 1 (kf_x f') i 0 = b_add N (cell 1 (kf_x f) i 0) (b_prodv N m (cell m (ob_K o')) (cell 1 (ob_y o')) i 0)) /\
  (forall i j, i < n -> j < n -> cell n (kf_P f') i j =
     b_sub N (cell n (kf_P f) i j) (b_prod N m (cell m (ob_K o')) (b_prod N n (cell n (ob_H o)) (cell n (kf_P f))) i j)).
Proof.
  intros Hn Hm Ho (VA & Vx & VP & VQ & Vpx & VtP) H. pose proof Ho as (VH & Vz & VR & Vy & VS & VK & VSinv & VHP & VPHt & VKHP).
  unfold correct, obs_correct in H. step H r E. destruct r as [[o1 x1] P1]. injection H as <- <-. step E y1 E1. step E y E2. cbn.
  out E1 (mult_rowvector_cellwise c N m n (ob_H o) (kf_x f) (ob_y o) Hn VH Vx Vy) V1 S1 C1.
  out E2 (sub_inplace_b_cellwise c N m 1 (ob_z o) y1 Vz V1) V2 S2 C2.
  assert (Ho' : ob_valid c n m (set_y o y)) by (unfold ob_valid, set_y; cbn; tauto).
  destruct (update_bits n m (set_y o y) o1 (kf_x f) (kf_P f) x1 P1 Hn Hm Ho' Vx VP E) as (S & HS & HF & HI & HK & HX & HP & HY). cbn in *.
  split.
  - intros i Hi. rewrite HY. destruct (C2 i 0 Hi (le_n 1)) as (v & Ev & ->). destruct (C1 i 0 Hi (le_n 1)) as (w & _ & Ew). rewrite Ev in Ew.
    unfold b_sub, b_prodv. rewrite <- Ew. reflexivity.
  - exists S. rewrite HY. auto 8.
Qed.

Lemma correct_nl_bits n m h (o o' : observation T) (f f' : kalman T) : 1 <= n -> 1 <= m -> ob_valid c n m o -> kf_valid c n f ->
  (forall out, h (kf_x f) (ob_y o) = Ok out -> valid c m 1 out) ->
  correct_nonlinear c N n m h o f = Ok (o', f') ->
  (exists out, h (kf_x f) (ob_y o) = Ok out /\ forall i, i < m -> cell 1 (ob_y o') i 0 = b_sub N (cell 1 (ob_z o) i 0) (cell 1 out i 0)) /\
  exists S : list T,
  (forall i j, i < m -> j < m -> cell m S i j = b_add N (b_prodt N n (b_prod N n (cell n (ob_H o)) (cell n (kf_P f))) (cell n (ob_H o)) i j) (cell m (ob_R o) i j)) /\
  (b_factor N m (cell m S) (cell m (ob_S o')) \/ b_no_factor N m (cell m S) (cell m (ob_S o'))) /\
  b_inverse N m (cell m (ob_S o')) (cell m (ob_Sinv o')) /\
  (forall i j, i < n -> j < m -> cell m (ob_K o') i j = b_prod N m (b_prodt N n (cell n (kf_P f)) (cell n (ob_H o))) (cell m (ob_Sinv o')) i j) /\
  (forall i, i < n -> cell 1 (kf_x f') i 0 = b_add N (cell 1 (kf_x f) i 0) (b_prodv N m (cell m (ob_K o')) (cell 1 (ob_y o')) i 0)) /\
  (forall i j, i < n -> j < n -> cell n (kf_P f') i j =
     b_sub N (cell n (kf_P f) i j) (b_prod N m (cell m (ob_K o')) (b_prod N n (cell n (ob_H o)) (cell n (kf_P f))) i j)).
Proof.
  intros Hn Hm Ho (VA & Vx & VP & VQ & Vpx & VtP) Hh H. pose proof Ho as (VH & Vz & VR & Vy & VS & VK & VSinv & VHP & VPHt & VKHP).
  unfold correct_nonlinear, obs_correct_nonlinear in H. step H r E. destruct r as [[o1 x1] P1]. injection H as <- <-. step E y1 E1. step E y E2. cbn.
  specialize (Hh y1 eq_refl).
  out E2 (sub_inplace_b_cellwise c N m 1 (ob_z o) y1 Vz Hh) V2 S2 C2.
  assert (Ho' : ob_valid c n m (set_y o y)) by (unfold ob_valid, set_y; cbn; tauto).
  destruct (update_bits n m (set_y o y) o1 (kf_x f) (kf_P f) x1 P1 Hn Hm Ho' Vx VP E) as (S & HS & HF & HI & HK & HX & HP & HY). cbn in *.
  split.
  - exists y1. split; [reflexivity|]. intros i Hi. rewrite HY. destruct (C2 i 0 Hi (le_n 1)) as (v & Ev & ->). unfold b_sub. rewrite Ev. reflexivity.
  - exists S. rewrite HY. auto 8.
Qed.
End Bits.

Lemma correct_bits' (T : Type) (c : cfg) (N : num T) n m (o o' : observation T) (f f' : kalman T) : 1 <= n -> 1 <= m -> ob_valid c n m o -> kf_valid c n f ->
  correct c N n m o f = Ok (o', f') ->
  (forall i, i < m -> cell 1 (ob_y o') i 0 = b_sub N (cell 1 (ob_z o) i 0) (b_prodv N n (cell n (ob_H o)) (cell 1 (kf_x f)) i 0)) /\
  b_update N n m (cell n (ob_H o)) (cell m (ob_R o)) (cell n (kf_P f)) (cell 1 (kf_x f)) (cell 1 (ob_y o'))
    (cell m (ob_S o')) (cell m (ob_Sinv o')) (cell m (ob_K o')) (cell 1 (kf_x f')) (cell n (kf_P f')).
Proof.
  intros Hn Hm Ho Hf H. destruct (correct_bits c N n m o o' f f' Hn Hm Ho Hf H) as (Hy & S & HS). split; [exact Hy|]. exists (cell m S). exact HS.
Qed.
Lemma correct_nl_bits' (T : Type) (c : cfg) (N : num T) n m h (o o' : observation T) (f f' : kalman T) : 1 <= n -> 1 <= m -> ob_valid c n m o -> kf_valid c n f ->
  (forall out, h (kf_x f) (ob_y o) = Ok out -> valid c m 1 out) ->
  correct_nonlinear c N n m h o f = Ok (o', f') ->
  (exists out, h (kf_x f) (ob_y o) = Ok out /\ forall i, i < m -> cell 1 (ob_y o') i 0 = b_sub N (cell 1 (ob_z o) i 0) (cell 1 out i 0)) /\
  b_update N n m (cell n (ob_H o)) (cell m (ob_R o)) (cell n (kf_P f)) (cell 1 (kf_x f)) (cell 1 (ob_y o'))
    (cell m (ob_S o')) (cell m (ob_Sinv o')) (cell m (ob_K o')) (cell 1 (kf_x f')) (cell n (kf_P f')).
Proof.
  intros Hn Hm Ho Hf Hh H. destruct (correct_nl_bits c N n m h o o' f f' Hn Hm Ho Hf Hh H) as (Hy & S & HS). split; [exact Hy|]. exists (cell m S). exact HS.
Qed.
