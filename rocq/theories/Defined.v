(** * Calls panic (for arithmetic reasons) exactly when their formulas cannot be evaluated *)
From Coq Require Import Lia.
From Verif Require Import Spec SpecBits SpecDefined Matrix Filter Extended SpecFilter Wp Kernels Access Chol Inv FilterGen FilterTwo BitsProof.

Section Def.
Context {T : Type} (c : cfg) (N : num T).
Notation mat := (nat -> nat -> option T).

Lemma wp_ok {A} (m : res A) Q E : wp m Q E -> (exists a, m = Ok a) -> wp m Q (fun _ => False).
Proof. intros H (a & ->). exact H. Qed.
Lemma wp_get {A} (m : res A) Q : wp m Q (fun _ => False) -> exists a, m = Ok a /\ Q a.
Proof. destruct m; cbn; [eauto|contradiction]. Qed.

Lemma cellwise_total R C (old : list T) g r : valid c R C old -> cellwise R C old g r ->
  (forall i j v, i < R -> j < C -> cell C old i j = Some v -> g i j v <> None) -> exists l, r = Ok l.
Proof.
  intros V H G. destruct r as [l|e]; [eauto|]. destruct H as (_ & i & j & v & Hi & Hj & Ev & Eg). exfalso. exact (G i j v Hi Hj Ev Eg).
Qed.
Lemma cell_def R C (l : list T) : valid c R C l -> defined R C (cell C l).
Proof. intros V i j Hi Hj. apply (cell_total c R C l i j V Hi Hj). Qed.

Lemma dot_def K f g : dot N K f g <> None -> forall k, k < K -> f k <> None /\ g k <> None.
Proof.
  induction K as [|K IH]; intros H k Hk; [lia|]. cbn [dot] in H. destruct (dot N K f g) as [a|]; [|cbn in H; congruence]. cbn [obind] in H.
  destruct (Nat.eq_dec k K) as [->|]; [|apply IH; [congruence|lia]].
  destruct (f K); [|cbn in H; congruence]. cbn [obind] in H. destruct (g K); [|cbn in H; congruence]. split; congruence.
Qed.
Lemma b_add_def a b : b_add N a b <> None -> a <> None /\ b <> None.
Proof. unfold b_add. destruct a, b; cbn; split; congruence. Qed.
Lemma b_sub_def a b : b_sub N a b <> None -> a <> None /\ b <> None.
Proof. unfold b_sub. destruct a, b; cbn; split; congruence. Qed.
Lemma b_mul_def a b : b_mul N a b <> None -> a <> None /\ b <> None.
Proof. unfold b_mul. destruct a, b; cbn; split; congruence. Qed.

(** ** predict *)
Theorem predict_defined n (f : kalman T) : 1 <= n -> kf_valid c n f ->
  (exists f', predict c N n f = Ok f') <-> can_predict N n (cell n (kf_A f)) (cell 1 (kf_x f)) (cell n (kf_P f)) (cell n (kf_Q f)).
Proof.
  intros Hn Hv. split.
  - intros (f' & E). destruct (predict_bits c N n f f' Hn Hv E) as (HX & HP).
    pose proof (predict_wp c N n f Hn Hv) as W. rewrite E in W. cbn in W.
    assert (Vf' : kf_valid c n f') by apply W. destruct Vf' as (_ & Vx & VP & _). split.
    + intros i j Hi Hj. replace j with 0 by lia. rewrite <- (HX i Hi). apply (cell_def n 1); auto.
    + intros i j Hi Hj. rewrite <- (HP i j Hi Hj). apply (cell_def n n); auto.
  - intros (DX & DP). destruct Hv as (VA & Vx & VP & VQ & Vpx & VtP). unfold predict, predict_x.
    pose proof (mult_rowvector_cellwise c N n n (kf_A f) (kf_x f) (kf_px f) Hn VA Vx Vpx) as C1.
    destruct (cellwise_total _ _ _ _ _ Vpx C1) as (px & E1). { intros i j v Hi Hj _. replace j with 0 by lia. apply (DX i 0); lia. }
    rewrite E1 in *. cbn [bind]. destruct (cellwise_out c _ _ _ _ _ _ Vpx C1 eq_refl) as (V1 & _ & _).
    pose proof (copy_to_cellwise c n 1 px (kf_x f) Hn (le_n 1) V1 Vx) as C2.
    destruct (cellwise_total _ _ _ _ _ Vx C2) as (x & E2). { intros i j v Hi Hj _. apply (cell_def n 1); auto. }
    rewrite E2. cbn [bind]. unfold predict_P. cbn.
    pose proof (mult_cellwise c N n n n (kf_A f) (kf_P f) (kf_tP f) VA VP VtP) as C3.
    assert (D3 : forall i k, i < n -> k < n -> b_prod N n (cell n (kf_A f)) (cell n (kf_P f)) i k <> None).
    { intros i k Hi Hk. specialize (DP i 0 Hi ltac:(lia)). apply b_add_def in DP. destruct DP as [DP _]. apply (dot_def _ _ _ DP k Hk). }
    destruct (cellwise_total _ _ _ _ _ VtP C3) as (tP & E3). { intros i j v Hi Hj _. apply (D3 i j); auto. }
    rewrite E3 in *. cbn [bind]. destruct (cellwise_out c _ _ _ _ _ _ VtP C3 eq_refl) as (V3 & _ & X3).
    pose proof (mult_transb_cellwise c N n n n tP (kf_A f) (kf_P f) V3 VA VP) as C4.
    assert (EQ : forall i j, i < n -> j < n -> dot N n (fun k => cell n tP i k) (fun k => cell n (kf_A f) j k) =
       b_prodt N n (b_prod N n (cell n (kf_A f)) (cell n (kf_P f))) (cell n (kf_A f)) i j).
    { intros i j Hi Hj. unfold b_prodt. apply dot_ext; [|auto]. intros k Hk. destruct (X3 i k Hi Hk) as (? & _ & ->). reflexivity. }
    destruct (cellwise_total _ _ _ _ _ VP C4) as (P1 & E4). { intros i j v Hi Hj _. cbn beta. rewrite EQ; auto. apply (b_add_def _ _ (DP i j Hi Hj)). }
    rewrite E4 in *. cbn [bind]. destruct (cellwise_out c _ _ _ _ _ _ VP C4 eq_refl) as (V4 & _ & X4).
    pose proof (add_inplace_b_cellwise c N n n (kf_Q f) P1 VQ V4) as C5.
    destruct (cellwise_total _ _ _ _ _ V4 C5) as (P2 & E5).
    { intros i j v Hi Hj Ev. destruct (X4 i j Hi Hj) as (w & _ & Ew). rewrite Ev, EQ in Ew by auto. specialize (DP i j Hi Hj). cbn beta in DP. rewrite <- Ew in DP. exact DP. }
    rewrite E5. cbn [bind]. eauto.
Qed.

(** ** control *)
Theorem control_defined n m (k : control T) (f : kalman T) : 1 <= n -> 1 <= m -> kf_valid c n f -> ct_valid c n m k ->
  (exists k' f', control_ c N n m k f = Ok (k', f')) <->
  can_control N n m (cell 1 (kf_x f)) (cell n (kf_P f)) (cell m (ct_B k)) (cell 1 (ct_u k)) (cell m (ct_Q k)).
Proof.
  intros Hn Hm Hv Hk. split.
  - intros (k' & f' & E). destruct (control_bits c N n m k k' f f' Hn Hm Hv Hk E) as (HX & HP).
    pose proof (control_wp c N n m k f Hk Hv) as W. rewrite E in W. cbn in W.
    assert (Vf' : kf_valid c n f') by apply W. destruct Vf' as (_ & Vx & VP & _). split.
    + intros i j Hi Hj. replace j with 0 by lia. rewrite <- (HX i Hi). apply (cell_def n 1); auto.
    + intros i j Hi Hj. rewrite <- (HP i j Hi Hj). apply (cell_def n n); auto.
  - intros (DX & DP). destruct Hv as (VA & Vx & VP & VQ & Vpx & VtP). destruct Hk as (VB & Vu & VQc & VBQ). unfold control_, apply_control.
    rewrite (is_empty_valid c _ _ _ Vu). cbn [bind]. rewrite Nat.mul_1_r.
    replace (m =? 0) with false by (symmetry; apply Nat.eqb_neq; lia). rewrite (is_empty_valid c _ _ _ VB). cbn [bind].
    replace (n * m =? 0) with false by (symmetry; apply Nat.eqb_neq; nia).
    pose proof (multadd_rowvector_cellwise c N n m (ct_B k) (ct_u k) (kf_x f) Hm VB Vu Vx) as C1.
    destruct (cellwise_total _ _ _ _ _ Vx C1) as (x & E1).
    { intros i j v Hi Hj Ev. specialize (DX i j Hi Hj). cbn beta in DX. rewrite Ev in DX. exact DX. }
    rewrite E1 in *. cbn [bind].
    pose proof (mult_cellwise c N n m m (ct_B k) (ct_Q k) (ct_BQ k) VB VQc VBQ) as C2.
    destruct (cellwise_total _ _ _ _ _ VBQ C2) as (BQ & E2).
    { intros i j v Hi Hj _. specialize (DP i 0 Hi ltac:(lia)). apply b_add_def in DP. destruct DP as [_ DP]. apply (dot_def _ _ _ DP j Hj). }
    rewrite E2 in *. cbn [bind]. destruct (cellwise_out c _ _ _ _ _ _ VBQ C2 eq_refl) as (V2 & _ & X2).
    pose proof (multadd_transb_cellwise c N n m n BQ (ct_B k) (kf_P f) V2 VB VP) as C3.
    destruct (cellwise_total _ _ _ _ _ VP C3) as (P1 & E3).
    { intros i j v Hi Hj Ev. specialize (DP i j Hi Hj). cbn beta in DP. rewrite Ev in DP. unfold b_add, b_prodt in DP. cbn [obind] in DP.
      rewrite (dot_ext N m _ (fun q => cell m (ct_B k) j q) (fun q => cell m BQ i q) (fun q => cell m (ct_B k) j q)) in DP; auto.
      intros q Hq. destruct (X2 i q Hi Hq) as (? & _ & ->). reflexivity. }
    rewrite E3. cbn [bind]. eauto.
Qed.

(** ** decomposition: if there is a factor, it is found (provided the idle products can be formed) *)
Lemma subdot_def K a f g : subdot N K a f g <> None -> forall k, k < K -> f k <> None /\ g k <> None.
Proof.
  induction K as [|K IH]; intros H k Hk; [lia|]. cbn [subdot] in H. destruct (subdot N K a f g) as [b|]; [|cbn in H; congruence]. cbn [obind] in H.
  destruct (Nat.eq_dec k K) as [->|]; [|apply IH; [congruence|lia]].
  destruct (f K); [|cbn in H; congruence]. cbn [obind] in H. destruct (g K); [|cbn in H; congruence]. split; congruence.
Qed.

(** the columns of [t] so far are those of the factor *)
Lemma cols_unique n (A t : list T) (L : mat) i : i <= n -> (forall i', i' < i -> chol_col N n A t i') -> (forall i', i' < n -> b_column N n (cell n A) L i') ->
  forall k p, k < i -> k <= p < n -> cell n t p k = L p k.
Proof.
  intros Hin HC HB k. induction k as [k IH] using lt_wf_ind. intros p Hk Hp.
  destruct (proj1 (chol_col_b N n A t k) (HC k Hk)) as (s & l & d & S1 & S2 & S3 & S4 & S5 & S6).
  destruct (HB k ltac:(lia)) as (s' & l' & d' & R1 & R2 & R3 & R4 & R5 & R6).
  assert (E : forall q, k <= q < n -> forall a, subdot N k a (fun k0 => cell n t k k0) (fun k0 => cell n t q k0) = subdot N k a (fun k0 => L k k0) (fun k0 => L q k0)).
  { intros q Hq a. apply subdot_ext; intros k0 Hk0; apply IH; lia. }
  assert (s = s'). { destruct (cell n A k k) as [a|]; [|discriminate]. cbn [obind] in *. rewrite (E k ltac:(lia)) in S1. congruence. } subst s'.
  rewrite S3 in R3. injection R3 as <-. rewrite S4 in R4. injection R4 as <-.
  destruct (Nat.eq_dec p k) as [->|Hne]; [congruence|].
  destruct (S6 p ltac:(lia)) as [Q1 _]. destruct (R6 p ltac:(lia)) as [Q2 _]. rewrite Q1, Q2. f_equal. destruct (cell n A k p) as [a|]; [|reflexivity]. cbn [obind]. apply E. lia.
Qed.

Lemma chol_body_ok n i j (A : list T) t d s : valid c n n A -> i <= j < n -> chol_inv_j N n A i j (t, d) ->
  csum N n A t i j = Some s -> o_mul N s d <> None ->
  (i = j -> n_le N s (n_zero N) = false /\ exists l, o_sqrt N s = Some l /\ o_recip N l <> None) ->
  exists s', chol_body c N n i j (t, d) = Ok (Next s').
Proof.
  intros HA Hij (Ht & Hu & Hcols & Hcur) Hcs Hm Hd.
  pose proof (valid_bound _ _ _ _ HA) as HB.
  assert (HL : length t = length A) by apply Ht.
  assert (Hii : i * n + i < n * n) by (apply idx_lt; lia).
  assert (Hij' : i * n + j < n * n) by (apply idx_lt; lia).
  assert (Hji : j * n + i < n * n) by (apply idx_lt; lia).
  unfold chol_body. rewrite idx_ok by lia.
  rewrite (rd_of_opt t) by lia. fold (cell n t i j).
  assert (Hcell : cell n t i j = cell n A i j).
  { apply Hu; try lia. destruct (Nat.eq_dec i j); [right|left; lia]. subst. rewrite Nat.eqb_refl. lia. }
  rewrite Hcell. rewrite !umul_ok by lia. cbn [bind].
  assert (Hin : forall sm, chol_inner c N i (i * n) (j * n) t sm =
     of_opt (subdot N i sm (fun k => cell n t i k) (fun k => cell n t j k))).
  { intros sm. apply chol_inner_subdot; lia. }
  unfold csum in Hcs. destruct (cell n A i j) as [a|]; [|discriminate]. cbn [of_opt bind obind] in *. rewrite Hin, Hcs. cbn [of_opt bind].
  unfold n_mul. destruct (o_mul N s d) as [v|]; [|congruence]. cbn [of_opt bind].
  rewrite uadd_ok by lia. cbn [bind]. rewrite wr_ok by lia. cbn [bind].
  destruct (Nat.eqb_spec i j) as [<-|Hne]; [|eauto].
  destruct (Hd eq_refl) as (-> & l & El & Er). unfold n_sqrt. rewrite El. cbn [of_opt bind].
  rewrite ?uadd_ok by lia. cbn [bind]. rewrite wr_ok by (rewrite length_upd; lia). cbn [bind].
  unfold n_recip. destruct (o_recip N l); [|congruence]. cbn [of_opt bind]. eauto.
Qed.

Lemma cholesky_complete n (A : list T) (L : mat) : 1 <= n -> valid c n n A -> b_factor N n (cell n A) L -> b_idle N n (cell n A) L ->
  exists t, cholesky_decompose_lower c N n n A = Ok (true, t) /\ forall i j, i < n -> j < n -> cell n t i j = L i j.
Proof.
  intros Hn HA [HF HU] HI.
  assert (E : exists t, cholesky_decompose_lower c N n n A = Ok (true, t)).
  2:{ destruct E as (t & E). exists t. split; [exact E|]. pose proof (cholesky_spec c N n A Hn HA) as HS. rewrite E in HS. destruct HS as (_ & HC & HZ).
      intros i j Hi Hj. destruct (Nat.lt_ge_cases i j); [rewrite HZ, HU by lia; reflexivity|]. eapply cols_unique; [exact (le_n n)|exact HC|exact HF|lia|lia]. }
  unfold cholesky_decompose_lower.
  assert (Hd : forall b, b = true -> dassert c b = Ok tt).
  { intros b ->. unfold dassert. destruct (no_assert c), (debug_assertions c); reflexivity. }
  rewrite (Hd (n =? n)) by apply Nat.eqb_refl. cbn [bind]. rewrite (Hd (0 <? n)) by (apply Nat.ltb_lt; lia). cbn [bind].
  set (prev := fun i => match i with 0 => Some (n_zero N) | S i' => obind (L i' i') (o_recip N) end).
  assert (H : wp (for_range_ret 0 n (A, n_zero N) (fun i s => for_range_ret i n s (chol_body c N n i)))
     (fun o => match o with Next s => chol_inv N n A n (fst s) | Return t => False end) (fun e => False)).
  { eapply wp_mono; [apply (wp_for_range_ret 0 n (A, n_zero N) (fun i s => for_range_ret i n s (chol_body c N n i))
      (fun i s => chol_inv N n A i (fst s) /\ prev i = Some (snd s)) (fun _ => False) (fun _ => False)); [lia| |]| |auto].
    - split; [|reflexivity]. split; [split; auto|]. split; [auto|]. intros; lia.
    - intros i [t d] Hi ((H1 & H2 & H3) & HP). cbn [fst snd] in *.
      eapply wp_mono; [apply (wp_for_range_ret i n (t, d) (chol_body c N n i) (fun j s => chol_inv_j N n A i j s /\ (j = i -> prev i = Some (snd s))) (fun _ => False) (fun _ => False))| |auto].
      + lia.
      + split; [|auto]. split; [auto|split; [|split; [auto|lia]]]. intros p q Hp Hq Hpq. rewrite Nat.eqb_refl in Hpq. apply H2; auto.
      + intros j [t' d'] Hj [Hs Hs'].
        destruct (HF i ltac:(lia)) as (s & l & r & R1 & R2 & R3 & R4 & R5 & R6).
        pose proof Hs as (_ & _ & Hcols & Hcur).
        assert (UN : forall k p, k < i -> k <= p < n -> cell n t' p k = L p k) by (eapply cols_unique; [|exact Hcols|exact HF]; lia).
        assert (ES : forall q, i <= q < n -> csum N n A t' i q = obind (cell n A i q) (fun a => subdot N i a (fun k => L i k) (fun k => L q k))).
        { intros q Hq. unfold csum. destruct (cell n A i q); [|reflexivity]. cbn [obind]. apply subdot_ext; intros k Hk; apply UN; lia. }
        destruct (Nat.eq_dec i j) as [<-|Hne].
        * specialize (Hs' eq_refl). cbn [snd] in Hs'.
          destruct (chol_body_ok n i i A t' d' s HA Hj Hs) as ((t2 & d2) & E2).
          { rewrite ES by lia. exact R1. } { specialize (HI i ltac:(lia)). unfold b_pivot in HI. rewrite R1 in HI. fold (prev i) in HI. rewrite Hs' in HI. exact HI. }
          { intros _. split; [exact R2|]. exists l. split; [exact R3|congruence]. }
          pose proof (chol_body_spec c N n i i A (t', d') HA Hj Hs) as W. rewrite E2 in W |- *. cbn [wp] in W |- *. split; [exact W|]. intros; lia.
        * specialize (Hcur ltac:(lia)). destruct Hcur as (s0 & l0 & G1 & G2 & G3 & G4 & G5 & G6).
          rewrite ES in G1 by lia. rewrite R1 in G1. injection G1 as <-. rewrite R3 in G3. injection G3 as <-. rewrite R4 in G4. injection G4 as <-.
          destruct (R6 j ltac:(lia)) as [Q1 Q2]. rewrite <- ES in Q1 by lia. rewrite Q1 in Q2. unfold b_mul in Q2. destruct (csum N n A t' i j) as [sj|] eqn:Ej; [|cbn in Q2; congruence]. cbn [obind] in Q2.
          destruct (chol_body_ok n i j A t' r sj HA Hj Hs Ej Q2) as ((t2 & d2) & E2); [intros; lia|].
          pose proof (chol_body_spec c N n i j A (t', r) HA Hj Hs) as W. rewrite E2 in W |- *. cbn [wp] in W |- *. split; [exact W|]. intros; lia.
      + intros [[t' d']|t'] Ho; [|exact Ho]. cbn [fst snd]. destruct Ho as [(G1 & G2 & G3 & G4) _]. split; [split; [auto|split]|].
        * intros p q Hp Hq Hpq. apply G2; auto. rewrite (proj2 (Nat.eqb_neq n i)) by lia. lia.
        * intros i' Hi'. destruct (Nat.eq_dec i' i) as [->|]; [exists d'; apply G4; lia|apply G3; lia].
        * specialize (G4 ltac:(lia)). destruct G4 as (s0 & l0 & K1 & K2 & K3 & K4 & K5 & K6).
          assert (Hcols : forall i', i' < S i -> chol_col N n A t' i').
          { intros i' Hi'. destruct (Nat.eq_dec i' i) as [->|]; [exists d', s0, l0; do 5 (split; [assumption|]); exact K6|apply G3; lia]. }
          unfold prev. rewrite <- (cols_unique n A t' L (S i) ltac:(lia) Hcols HF i i ltac:(lia) ltac:(lia)). rewrite K5. exact K4.
    - intros [s|s] Ho; [apply Ho|exact Ho]. }
  destruct (for_range_ret _ _ _ _) as [[[t d]|t]|e]; cbn [wp bind fst] in *; [|contradiction|contradiction].
  destruct H as (H1 & H2 & H3).
  destruct (zero_upper_spec c N n t) as (t' & -> & Z1 & Z2); [eapply valid_length; [exact HA|apply H1]|]. cbn [bind]. eauto.
Qed.

(** ** inversion *)
Lemma osum_def lo cnt f : osum N lo cnt f <> None -> forall k, lo <= k < lo + cnt -> f k <> None.
Proof.
  induction cnt as [|cnt IH]; intros H k Hk; [lia|]. cbn [osum] in H. destruct (osum N lo cnt f) as [a|]; [|cbn in H; congruence]. cbn [obind] in H.
  destruct (Nat.eq_dec k (lo + cnt)) as [->|]; [|apply IH; [congruence|lia]]. destruct (f (lo + cnt)); [congruence|cbn in H; congruence].
Qed.

Definition b_inv_of (n : nat) (L Y X : mat) : Prop := forall i, i < n -> exists r, obind (L i i) (o_recip N) = Some r /\ forall j, j <= i ->
    Y j i = b_mul N (b_add N (Some (if i =? j then n_one N else n_zero N)) (b_negsum N j (i - j) (fun k => L i k) (fun k => Y j k))) (Some r) /\
    X i j = b_mul N (b_add N (Y j i) (b_negsum N (i + 1) (n - (i + 1)) (fun k => L k i) (fun k => X j k))) (Some r) /\
    X j i = X i j.

Lemma phase1_complete n (mat0 inv0 : list T) (L Y X : mat) : valid c n n mat0 -> valid c n n inv0 ->
  (forall i j, i < n -> j < n -> cell n mat0 i j = L i j) -> b_inv_of n L Y X -> defined n n X ->
  exists Y', invert_phase1 c N n mat0 inv0 = Ok Y' /\ same_tail n n inv0 Y' /\ forall i j, i < n -> j <= i -> cell n Y' j i = Y j i.
Proof.
  intros Hm Hv HL HI HX. pose proof (valid_bound _ _ _ _ Hm) as HBm. pose proof (valid_bound _ _ _ _ Hv) as HBv.
  apply wp_get. unfold invert_phase1.
  eapply wp_mono; [apply (wp_for_range 0 n inv0 _ (fun i Y' => same_tail n n inv0 Y' /\ forall i' j, i' < i -> j <= i' -> cell n Y' j i' = Y j i') (fun e => False))| |auto].
  - lia.
  - split; [split; auto|]. intros; lia.
  - intros i Y1 Hi [HY1 HY2]. assert (Hii : i * n + i < n * n) by (apply idx_lt; lia).
    assert (HLY : length Y1 = length inv0) by apply HY1.
    rewrite idx_ok by lia. rewrite (rd_of_opt mat0) by lia. fold (cell n mat0 i i). rewrite HL by lia.
    destruct (HI i ltac:(lia)) as (r & Er & Hent). destruct (L i i) as [l|]; [|discriminate]. cbn [of_opt bind obind] in *.
    unfold n_recip. rewrite Er. cbn [of_opt bind].
    eapply wp_mono; [apply (wp_for_range 0 (S i) Y1 _ (fun j Y' => same_tail n n inv0 Y' /\
       (forall i' j', i' < i -> j' <= i' -> cell n Y' j' i' = Y j' i') /\ forall j', j' < j -> cell n Y' j' i = Y j' i) (fun e => False))| |auto].
    + lia.
    + split; [auto|split; [auto|]]. intros; lia.
    + intros j Y' Hj (G1 & G2 & G3). assert (HL' : length Y' = length inv0) by apply G1.
      assert (Hji : j * n + i < n * n) by (apply idx_lt; lia).
      rewrite (isum_rd N j (i - j) _ (fun k => cell n mat0 i k) (fun k => cell n Y' j k)); [| |lia].
      2:{ intros k Hk. assert (i * n + k < n * n) by (apply idx_lt; lia). assert (j * n + k < n * n) by (apply idx_lt; lia).
          rewrite idx_ok by lia. rewrite (rd_of_opt mat0) by lia. apply bind_ext; intros mv _.
          apply bind_ext; intros nm _. rewrite idx_ok by lia. rewrite (rd_of_opt Y') by lia. reflexivity. }
      rewrite (isum_ext N j (i - j) _ _ (fun k => L i k) (fun k => Y j k)); [|intros; apply HL; lia|intros k Hk; apply G2; lia].
      destruct (Hent j ltac:(lia)) as (EY & EX & _).
      assert (DY : Y j i <> None). { pose proof (HX i j ltac:(lia) ltac:(lia)) as D. rewrite EX in D. apply b_mul_def in D. destruct D as [D _]. apply b_add_def in D. apply D. }
      rewrite EY in DY. unfold b_negsum in *. fold (isum N j (i - j) (fun k => L i k) (fun k => Y j k)) in *.
      destruct (isum N j (i - j) (fun k => L i k) (fun k => Y j k)) as [s|] eqn:Hs; [|exfalso; apply DY; reflexivity]. cbn [of_opt bind].
      unfold b_add, b_mul in DY, EY. cbn [obind] in DY, EY. unfold n_add. destruct (o_add N _ s) as [w|]; [|exfalso; apply DY; reflexivity]. cbn [of_opt bind obind] in *.
      unfold n_mul. destruct (o_mul N w r) as [v|]; [|exfalso; apply DY; reflexivity]. cbn [of_opt bind obind] in *.
      rewrite idx_ok by lia. rewrite wr_ok by lia. cbn [wp].
      assert (Hc : forall p q, p < n -> q < n -> (p, q) <> (j, i) -> cell n (upd Y' (j * n + i) v) p q = cell n Y' p q).
      { intros p q Hp Hq Hne. apply cell_inj; auto; lia. }
      split; [apply same_tail_upd; auto; lia|]. split.
      * intros i' j' Hi' Hj'. rewrite Hc by (try lia; intros E; inversion E; lia). apply G2; lia.
      * intros j' Hj'. destruct (Nat.eq_dec j' j) as [->|Hne]; [rewrite cell_upd_same by lia; auto|].
        rewrite Hc by (try lia; intros E; inversion E; lia). apply G3; lia.
    + intros Y' (G1 & G2 & G3). split; [auto|]. intros i' j Hi' Hj. destruct (Nat.eq_dec i' i) as [->|]; [apply G3; lia|apply G2; lia].
  - auto.
Qed.

Lemma phase2_complete n (mat0 Y0 : list T) (L Y X : mat) : 1 <= n -> valid c n n mat0 -> valid c n n Y0 ->
  (forall i j, i < n -> j < n -> cell n mat0 i j = L i j) -> b_inv_of n L Y X -> defined n n X -> (forall i j, i < n -> j <= i -> cell n Y0 j i = Y j i) ->
  exists X', invert_phase2 c N n mat0 Y0 = Ok X' /\ same_tail n n Y0 X' /\ forall i j, i < n -> j < n -> cell n X' i j = X i j.
Proof.
  intros Hn Hm Hv HL HI HX HY0. pose proof (valid_bound _ _ _ _ Hm) as HBm. pose proof (valid_bound _ _ _ _ Hv) as HBv.
  apply wp_get. unfold invert_phase2. rewrite usub_ok by lia. cbn [bind]. replace (S (n - 1)) with n by lia.
  eapply wp_mono; [apply (wp_for_down n Y0 _ (fun i X' => same_tail n n Y0 X' /\
      (forall p q, p < i -> q < i -> cell n X' p q = cell n Y0 p q) /\ forall p q, p < n -> q < n -> i <= p \/ i <= q -> cell n X' p q = X p q) (fun e => False))| |auto].
  - split; [split; auto|]. split; [auto|]. intros; lia.
  - intros i X1 Hi (HX1 & HX2 & HX3). assert (Hii : i * n + i < n * n) by (apply idx_lt; lia).
    assert (Hin : i < n * n) by nia.
    assert (HLX : length X1 = length Y0) by apply HX1.
    rewrite idx_ok by lia. rewrite (rd_of_opt mat0) by lia. fold (cell n mat0 i i). rewrite HL by lia.
    destruct (HI i ltac:(lia)) as (r & Er & Hent). destruct (L i i) as [l|]; [|discriminate]. cbn [of_opt bind obind] in *.
    unfold n_recip. rewrite Er. cbn [of_opt bind].
    eapply wp_mono; [apply (wp_for_range 0 (S i) X1 _ (fun j X' => same_tail n n Y0 X' /\
       (forall p q, p < i -> q < i -> cell n X' p q = cell n Y0 p q) /\
       (forall q, j <= q <= i -> cell n X' q i = cell n Y0 q i) /\
       (forall p q, p < n -> q < n -> i < p \/ i < q -> cell n X' p q = X p q) /\
       forall j', j' < j -> cell n X' i j' = X i j' /\ cell n X' j' i = X j' i) (fun e => False))| |auto].
    + lia.
    + split; [auto|split; [intros; apply HX2; lia|]]. split; [intros; apply HX2; lia|]. split; [intros; apply HX3; lia|]. intros; lia.
    + intros j X' Hj (G1 & G2 & G3 & G4 & G5). assert (HL' : length X' = length Y0) by apply G1.
      assert (Hji : j * n + i < n * n) by (apply idx_lt; lia).
      assert (Hij : i * n + j < n * n) by (apply idx_lt; lia).
      rewrite idx_ok by lia. rewrite (rd_of_opt X') by lia. fold (cell n X' j i).
      rewrite G3, HY0 by lia.
      destruct (Hent j ltac:(lia)) as (EY & EX & ES).
      pose proof (HX i j ltac:(lia) ltac:(lia)) as DX. rewrite EX in DX. unfold b_negsum in *. replace (i + 1) with (S i) in * by lia.
      fold (isum N (S i) (n - S i) (fun k => L k i) (fun k => X j k)) in *.
      destruct (Y j i) as [y|]; [|exfalso; apply DX; reflexivity]. cbn [of_opt bind].
      rewrite (proj2 (Nat.ltb_ge i j)) by lia.
      rewrite (uadd_ok c i 1) by lia. cbn [bind]. replace (i + 1) with (S i) by lia.
      rewrite (isum_rd N (S i) (n - S i) _ (fun k => cell n mat0 k i) (fun k => cell n X' j k)); [| |lia].
      2:{ intros k Hk. assert (k * n + i < n * n) by (apply idx_lt; lia). assert (j * n + k < n * n) by (apply idx_lt; lia).
          rewrite idx_ok by lia. rewrite (rd_of_opt mat0) by lia. apply bind_ext; intros mv _.
          apply bind_ext; intros nm _. rewrite idx_ok by lia. rewrite (rd_of_opt X') by lia. reflexivity. }
      rewrite (isum_ext N (S i) (n - S i) _ _ (fun k => L k i) (fun k => X j k)); [|intros; apply HL; lia|intros k Hk; apply G4; lia].
      destruct (isum N (S i) (n - S i) (fun k => L k i) (fun k => X j k)) as [s|] eqn:Hs; [|exfalso; apply DX; reflexivity]. cbn [of_opt bind].
      unfold b_add, b_mul in DX, EX. cbn [obind] in DX, EX. unfold n_add. destruct (o_add N y s) as [w|]; [|exfalso; apply DX; reflexivity]. cbn [of_opt bind obind] in *.
      unfold n_mul. destruct (o_mul N w r) as [v|]; [|exfalso; apply DX; reflexivity]. cbn [of_opt bind obind] in *.
      rewrite idx_ok by lia. rewrite wr_ok by lia. cbn [bind].
      rewrite idx_ok by lia. rewrite wr_ok by (rewrite length_upd; lia). cbn [wp].
      assert (Hc : forall p q, p < n -> q < n -> (p, q) <> (j, i) -> (p, q) <> (i, j) ->
          cell n (upd (upd X' (i * n + j) v) (j * n + i) v) p q = cell n X' p q).
      { intros p q Hp Hq Hne Hne'. rewrite !cell_inj; auto; lia. }
      assert (HE1 : cell n (upd (upd X' (i * n + j) v) (j * n + i) v) j i = Some v).
      { apply cell_upd_same. rewrite length_upd; lia. }
      assert (HE2 : cell n (upd (upd X' (i * n + j) v) (j * n + i) v) i j = Some v).
      { destruct (Nat.eq_dec i j) as [->|Hne]; [exact HE1|]. rewrite cell_inj by (try lia; intros E; inversion E; lia).
        apply cell_upd_same. lia. }
      split; [apply same_tail_upd; [lia|lia|]; apply same_tail_upd; auto; lia|]. split; [|split; [|split]].
      * intros p q Hp Hq. rewrite Hc; try lia; [apply G2; auto| |]; intros E; inversion E; lia.
      * intros q Hq. rewrite Hc; try lia; [apply G3; lia| |]; intros E; inversion E; lia.
      * intros p q Hp Hq Hpq. rewrite Hc; try lia; [apply G4; lia| |]; intros E; inversion E; lia.
      * intros j' Hj'. destruct (Nat.eq_dec j' j) as [->|Hne].
        -- rewrite HE1, HE2, ES, EX. auto.
        -- rewrite !Hc by (try lia; intros E; inversion E; lia). apply G5; lia.
    + intros X' (G1 & G2 & G3 & G4 & G5). split; [auto|]. split; [auto|]. intros p q Hp Hq Hpq.
      destruct (Nat.eq_dec p i) as [->|]; [|destruct (Nat.eq_dec q i) as [->|]; [|apply G4; lia]].
      * destruct (Nat.le_gt_cases q i); [apply G5; lia|apply G4; lia].
      * destruct (Nat.le_gt_cases p i); [apply G5; lia|apply G4; lia].
  - intros X' (G1 & G2 & G3). split; [auto|]. intros i j Hi Hj. apply G3; lia.
Qed.

Lemma invert_complete n (mat0 inv0 : list T) (L X : mat) : 1 <= n -> valid c n n mat0 -> valid c n n inv0 ->
  (forall i j, i < n -> j < n -> cell n mat0 i j = L i j) -> b_inverse N n L X -> defined n n X ->
  exists X', invert_l_cholesky c N n mat0 inv0 = Ok X' /\ valid c n n X' /\ forall i j, i < n -> j < n -> cell n X' i j = X i j.
Proof.
  intros Hn Hm Hv HL (Y & HI) HX. destruct (phase1_complete n mat0 inv0 L Y X Hm Hv HL HI HX) as (Y' & E1 & T1 & C1).
  assert (V1 : valid c n n Y') by (eapply valid_length; [exact Hv|apply T1]).
  destruct (phase2_complete n mat0 Y' L Y X Hn Hm V1 HL HI HX C1) as (X' & E2 & T2 & C2).
  exists X'. unfold invert_l_cholesky. rewrite E1. cbn [bind]. split; [exact E2|]. split; [eapply valid_length; [exact V1|apply T2]|exact C2].
Qed.

(** ** the update, given the innovation *)
Definition can_update (n m : nat) (H R x P y : mat) : Prop := exists S L Si K x' P' : mat,
  (forall i j, i < m -> j < m -> S i j = b_add N (b_prodt N n (b_prod N n H P) H i j) (R i j)) /\
  b_factor N m S L /\ b_inverse N m L Si /\
  (forall i j, i < n -> j < m -> K i j = b_prod N m (b_prodt N n P H) Si i j) /\
  (forall i, i < n -> x' i 0 = b_add N (x i 0) (b_prodv N m K y i 0)) /\
  (forall i j, i < n -> j < n -> P' i j = b_sub N (P i j) (b_prod N m K (b_prod N n H P) i j)) /\
  defined m m S /\ defined m m Si /\ defined n m K /\ defined n 1 x' /\ defined n n P' /\ b_idle N m S L.
Lemma update_defined n m (o : observation T) (x0 P0 : list T) (y : mat) : 1 <= n -> 1 <= m -> ob_valid c n m o -> valid c n 1 x0 -> valid c n n P0 ->
  (forall i, i < m -> cell 1 (ob_y o) i 0 = y i 0) -> can_update n m (cell n (ob_H o)) (cell m (ob_R o)) (cell 1 x0) (cell n P0) y ->
  exists r, update_with_innovation c N n m o x0 P0 = Ok r.
Proof.
  intros Hn Hm (VH & Vz & VR & V2 & VS & VK & VSinv & VHP & VPHt & VKHP) Vx VP Ey.
  intros (S & L & Si & K & x' & P' & QS & HF & HI & QK & Qx & QP & DS & DSi & DK & Dx & DP & HS).
  unfold update_with_innovation.
  pose proof (mult_cellwise c N m n n (ob_H o) P0 (ob_HP o) VH VP VHP) as C3.
  assert (D3 : forall i k, i < m -> k < n -> b_prod N n (cell n (ob_H o)) (cell n P0) i k <> None).
  { intros i k Hi Hk. specialize (DS i 0 Hi ltac:(lia)). rewrite QS in DS by lia. apply b_add_def in DS. destruct DS as [DS _]. apply (dot_def _ _ _ DS k Hk). }
  destruct (cellwise_total _ _ _ _ _ VHP C3) as (HP & E3). { intros i j v Hi Hj _. apply (D3 i j); auto. }
  rewrite E3 in *. cbn [bind]. destruct (cellwise_out c _ _ _ _ _ _ VHP C3 eq_refl) as (V3 & _ & X3).
  pose proof (mult_transb_cellwise c N m n m HP (ob_H o) (ob_S o) V3 VH VS) as C4.
  assert (EQ : forall i j, i < m -> j < m -> dot N n (fun k => cell n HP i k) (fun k => cell n (ob_H o) j k) =
     b_prodt N n (b_prod N n (cell n (ob_H o)) (cell n P0)) (cell n (ob_H o)) i j).
  { intros i j Hi Hj. unfold b_prodt. apply dot_ext; [|auto]. intros k Hk. destruct (X3 i k Hi Hk) as (? & _ & ->). reflexivity. }
  destruct (cellwise_total _ _ _ _ _ VS C4) as (S1 & E4).
  { intros i j v Hi Hj _. cbn beta. rewrite EQ; auto. specialize (DS i j Hi Hj). rewrite QS in DS by auto. apply (b_add_def _ _ DS). }
  rewrite E4 in *. cbn [bind]. destruct (cellwise_out c _ _ _ _ _ _ VS C4 eq_refl) as (V4 & _ & X4).
  pose proof (add_inplace_a_cellwise c N m m S1 (ob_R o) V4 VR) as C5.
  destruct (cellwise_total _ _ _ _ _ V4 C5) as (S2 & E5).
  { intros i j v Hi Hj Ev. destruct (X4 i j Hi Hj) as (w & _ & Ew). rewrite Ev, EQ in Ew by auto. specialize (DS i j Hi Hj). rewrite QS in DS by auto. rewrite <- Ew in DS. exact DS. }
  rewrite E5 in *. cbn [bind]. destruct (cellwise_out c _ _ _ _ _ _ V4 C5 eq_refl) as (V5 & _ & X5).
  assert (ES : forall i j, i < m -> j < m -> cell m S2 i j = S i j).
  { intros i j Hi Hj. destruct (X5 i j Hi Hj) as (v & Ev & ->). destruct (X4 i j Hi Hj) as (w & _ & Ew). rewrite Ev, EQ in Ew by auto.
    rewrite QS by auto. unfold b_add. rewrite <- Ew. reflexivity. }
  assert (HF' : b_factor N m (cell m S2) L).
  { destruct HF as [HF HU]. split; [|exact HU]. intros i Hi. destruct (HF i Hi) as (s & l & d & R1 & R2 & R3 & R4 & R5 & R6). exists s, l, d.
    rewrite ES by auto. do 5 (split; [assumption|]). intros j Hj. rewrite ES by lia. apply R6; auto. }
  assert (HS' : b_idle N m (cell m S2) L). { intros i Hi. specialize (HS i Hi). unfold b_pivot in *. rewrite ES by auto. exact HS. }
  destruct (cholesky_complete m S2 L Hm V5 HF' HS') as (t & E6 & X6). rewrite E6. cbn [bind].
  assert (V6 : valid c m m t). { pose proof (cholesky_spec c N m S2 Hm V5) as W. rewrite E6 in W. eapply valid_length; [exact V5|apply W]. }
  destruct (invert_complete m t (ob_Sinv o) L Si Hm V6 VSinv X6 HI DSi) as (Sinv & E7 & V7 & X7). rewrite E7. cbn [bind].
  pose proof (mult_transb_cellwise c N n n m P0 (ob_H o) (ob_PHt o) VP VH VPHt) as C8.
  destruct (cellwise_total _ _ _ _ _ VPHt C8) as (PHt & E8).
  { intros i j v Hi Hj _. specialize (DK i 0 Hi ltac:(lia)). rewrite QK in DK by lia. apply (dot_def _ _ _ DK j Hj). }
  rewrite E8 in *. cbn [bind]. destruct (cellwise_out c _ _ _ _ _ _ VPHt C8 eq_refl) as (V8 & _ & X8).
  pose proof (mult_cellwise c N n m m PHt Sinv (ob_K o) V8 V7 VK) as C9.
  assert (EK : forall i j, i < n -> j < m -> dot N m (fun k => cell m PHt i k) (fun k => cell m Sinv k j) = K i j).
  { intros i j Hi Hj. rewrite QK by auto. unfold b_prod. apply dot_ext; intros k Hk; [destruct (X8 i k Hi Hk) as (? & _ & ->); reflexivity|apply X7; auto]. }
  destruct (cellwise_total _ _ _ _ _ VK C9) as (K' & E9). { intros i j v Hi Hj _. cbn beta. rewrite EK; auto. }
  rewrite E9 in *. cbn [bind]. destruct (cellwise_out c _ _ _ _ _ _ VK C9 eq_refl) as (V9 & _ & X9).
  assert (EK' : forall i j, i < n -> j < m -> cell m K' i j = K i j). { intros i j Hi Hj. destruct (X9 i j Hi Hj) as (? & _ & ->). apply EK; auto. }
  pose proof (multadd_rowvector_cellwise c N n m K' (ob_y o) x0 Hm V9 V2 Vx) as C10.
  destruct (cellwise_total _ _ _ _ _ Vx C10) as (x2 & E10).
  { intros i j v Hi Hj Ev. replace j with 0 in * by lia. cbn beta. rewrite (dot1_ext N m _ _ (fun k => K i k) (fun k => y k 0)); [|intros; apply EK'; auto|intros; apply Ey; auto].
    specialize (Dx i 0 Hi ltac:(lia)). rewrite Qx in Dx by auto. rewrite Ev in Dx. exact Dx. }
  rewrite E10. cbn [bind].
  pose proof (mult_cellwise c N m n n (ob_H o) P0 HP VH VP V3) as C11.
  destruct (cellwise_total _ _ _ _ _ V3 C11) as (HP2 & E11). { intros i j v Hi Hj _. apply (D3 i j); auto. }
  rewrite E11 in *. cbn [bind]. destruct (cellwise_out c _ _ _ _ _ _ V3 C11 eq_refl) as (V11 & _ & X11).
  pose proof (mult_cellwise c N n m n K' HP2 (ob_KHP o) V9 V11 VKHP) as C12.
  assert (EKH : forall i j, i < n -> j < n -> dot N m (fun k => cell m K' i k) (fun k => cell n HP2 k j) = b_prod N m K (b_prod N n (cell n (ob_H o)) (cell n P0)) i j).
  { intros i j Hi Hj. unfold b_prod at 1. apply dot_ext; intros k Hk; [apply EK'; auto|destruct (X11 k j Hk Hj) as (? & _ & ->); reflexivity]. }
  destruct (cellwise_total _ _ _ _ _ VKHP C12) as (KHP & E12).
  { intros i j v Hi Hj _. cbn beta. rewrite EKH; auto. specialize (DP i j Hi Hj). rewrite QP in DP by auto. apply (b_sub_def _ _ DP). }
  rewrite E12 in *. cbn [bind]. destruct (cellwise_out c _ _ _ _ _ _ VKHP C12 eq_refl) as (V12 & _ & X12).
  pose proof (sub_inplace_a_cellwise c N n n P0 KHP VP V12) as C13.
  destruct (cellwise_total _ _ _ _ _ VP C13) as (P2 & E13).
  { intros i j v Hi Hj Ev. cbn beta. destruct (X12 i j Hi Hj) as (w & _ & Ew). rewrite EKH in Ew by auto. specialize (DP i j Hi Hj). rewrite QP in DP by auto.
    rewrite Ev in DP. rewrite Ew. exact DP. }
  rewrite E13. cbn [bind]. eauto.
Qed.
(** ** correct *)
Theorem correct_defined n m (o : observation T) (f : kalman T) : 1 <= n -> 1 <= m -> ob_valid c n m o -> kf_valid c n f ->
  can_correct N n m (cell n (ob_H o)) (cell 1 (ob_z o)) (cell m (ob_R o)) (cell 1 (kf_x f)) (cell n (kf_P f)) ->
  exists o' f', correct c N n m o f = Ok (o', f').
Proof.
  intros Hn Hm (VH & Vz & VR & Vy & VS & VK & VSinv & VHP & VPHt & VKHP) (VA & Vx & VP & _).
  intros (y & S & L & Si & K & x' & P' & Qy & QS & HF & HI & QK & Qx & QP & Dy & DS & DSi & DK & Dx & DP & HS).
  unfold correct, obs_correct.
  pose proof (mult_rowvector_cellwise c N m n (ob_H o) (kf_x f) (ob_y o) Hn VH Vx Vy) as C1.
  assert (D1 : forall i, i < m -> b_prodv N n (cell n (ob_H o)) (cell 1 (kf_x f)) i 0 <> None).
  { intros i Hi. specialize (Dy i 0 Hi ltac:(lia)). rewrite Qy in Dy by auto. apply b_sub_def in Dy. apply Dy. }
  destruct (cellwise_total _ _ _ _ _ Vy C1) as (y1 & E1). { intros i j v Hi Hj _. apply (D1 i Hi). }
  rewrite E1 in *. cbn [bind]. destruct (cellwise_out c _ _ _ _ _ _ Vy C1 eq_refl) as (V1 & _ & X1).
  pose proof (sub_inplace_b_cellwise c N m 1 (ob_z o) y1 Vz V1) as C2.
  destruct (cellwise_total _ _ _ _ _ V1 C2) as (y2 & E2).
  { intros i j v Hi Hj Ev. replace j with 0 in * by lia. destruct (X1 i 0 Hi ltac:(lia)) as (w & _ & Ew). rewrite Ev in Ew.
    specialize (Dy i 0 Hi ltac:(lia)). rewrite Qy in Dy by auto. unfold b_prodv in Dy. rewrite <- Ew in Dy. exact Dy. }
  rewrite E2 in *. cbn [bind]. destruct (cellwise_out c _ _ _ _ _ _ V1 C2 eq_refl) as (V2 & _ & X2).
  assert (Ey : forall i, i < m -> cell 1 y2 i 0 = y i 0).
  { intros i Hi. destruct (X2 i 0 Hi ltac:(lia)) as (v & Ev & ->). destruct (X1 i 0 Hi ltac:(lia)) as (w & _ & Ew). rewrite Ev in Ew. rewrite Qy by auto.
    unfold b_prodv. rewrite <- Ew. reflexivity. }
  assert (VO : ob_valid c n m (set_y o y2)) by (unfold ob_valid, set_y; cbn; tauto).
  destruct (update_defined n m (set_y o y2) (kf_x f) (kf_P f) y Hn Hm VO Vx VP Ey) as (r & ->).
  { exists S, L, Si, K, x', P'. cbn [set_y ob_H ob_R]. auto 12. }
  destruct r as [[o' x1] P1]. cbn [bind]. eauto.
Qed.
Theorem correct_nl_defined n m h (o : observation T) (f : kalman T) out (y : mat) : 1 <= n -> 1 <= m -> ob_valid c n m o -> kf_valid c n f ->
  h (kf_x f) (ob_y o) = Ok out -> valid c m 1 out -> (forall i, i < m -> y i 0 = b_sub N (cell 1 (ob_z o) i 0) (cell 1 out i 0)) -> defined m 1 y ->
  can_update n m (cell n (ob_H o)) (cell m (ob_R o)) (cell 1 (kf_x f)) (cell n (kf_P f)) y ->
  exists o' f', correct_nonlinear c N n m h o f = Ok (o', f').
Proof.
  intros Hn Hm (VH & Vz & VR & Vy & VS & VK & VSinv & VHP & VPHt & VKHP) (VA & Vx & VP & _) Eh V1 Qy Dy CU.
  unfold correct_nonlinear, obs_correct_nonlinear. rewrite Eh. cbn [bind].
  pose proof (sub_inplace_b_cellwise c N m 1 (ob_z o) out Vz V1) as C2.
  destruct (cellwise_total _ _ _ _ _ V1 C2) as (y2 & E2).
  { intros i j v Hi Hj Ev. replace j with 0 in * by lia. specialize (Dy i 0 Hi ltac:(lia)). rewrite Qy, Ev in Dy by auto. exact Dy. }
  rewrite E2 in *. cbn [bind]. destruct (cellwise_out c _ _ _ _ _ _ V1 C2 eq_refl) as (V2 & _ & X2).
  assert (Ey : forall i, i < m -> cell 1 y2 i 0 = y i 0).
  { intros i Hi. destruct (X2 i 0 Hi ltac:(lia)) as (v & Ev & ->). rewrite Qy, Ev by auto. reflexivity. }
  assert (VO : ob_valid c n m (set_y o y2)) by (unfold ob_valid, set_y; cbn; tauto).
  destruct (update_defined n m (set_y o y2) (kf_x f) (kf_P f) y Hn Hm VO Vx VP Ey CU) as (r & ->).
  destruct r as [[o' x1] P1]. cbn [bind]. eauto.
Qed.
End Def.
