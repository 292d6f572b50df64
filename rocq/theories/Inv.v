(** * Inversion from the Cholesky factor: element-type generic lemmas *)
From Verif Require Import Spec Matrix Wp Kernels Access Chol.

Section Inv.
Context {T : Type} (c : cfg) (N : num T).

(** sum of (-m k) * x k for k = lo .. lo+cnt-1 *)
Definition isum (lo cnt : nat) (m x : nat -> option T) : option T :=
  osum N lo cnt (fun k => obind (m k) (fun mv => obind (o_neg N mv) (fun nm => obind (x k) (fun iv => o_mul N nm iv)))).

Lemma isum_ext lo cnt m x m' x' :
  (forall k, lo <= k < lo + cnt -> m k = m' k) -> (forall k, lo <= k < lo + cnt -> x k = x' k) ->
  isum lo cnt m x = isum lo cnt m' x'.
Proof. intros H1 H2. apply osum_ext. intros k Hk. rewrite H1, H2 by auto. reflexivity. Qed.

(** the diagonal of the factor has reciprocals *)
Definition diag_recip (n : nat) (mat : list T) : Prop :=
  forall i l, i < n -> cell n mat i i = Some l -> o_recip N l <> None.

Lemma isum_total lo cnt m x : num_total N ->
  (forall k, lo <= k < lo + cnt -> m k <> None) -> (forall k, lo <= k < lo + cnt -> x k <> None) ->
  isum lo cnt m x <> None.
Proof.
  intros HT Hm Hx. apply osum_total; auto. intros k Hk. specialize (Hm k Hk). specialize (Hx k Hk).
  destruct (m k) as [mv|]; [|congruence]. cbn [obind].
  destruct HT as (_ & _ & HTm & HTn & _). specialize (HTn mv). destruct (o_neg N mv) as [nm|]; [|congruence]. cbn [obind].
  destruct (x k) as [xv|]; [|congruence]. apply HTm.
Qed.

(** Y (upper part, entry (j,i) with j <= i) after the first loop *)
Definition inv1_entry (n : nat) (mat Y : list T) (r : T) (i j : nat) : Prop :=
  exists s w v,
    isum j (i - j) (fun k => cell n mat i k) (fun k => cell n Y j k) = Some s /\
    o_add N (if i =? j then n_one N else n_zero N) s = Some w /\
    o_mul N w r = Some v /\ cell n Y j i = Some v.
Definition inv1_col (n : nat) (mat Y : list T) (i : nat) : Prop :=
  exists l r, cell n mat i i = Some l /\ o_recip N l = Some r /\ forall j, j <= i -> inv1_entry n mat Y r i j.

(** X after the second loop *)
Definition inv2_entry (n : nat) (mat Y X : list T) (r : T) (i j : nat) : Prop :=
  exists y s w v,
    cell n Y j i = Some y /\
    isum (S i) (n - S i) (fun k => cell n mat k i) (fun k => cell n X j k) = Some s /\
    o_add N y s = Some w /\ o_mul N w r = Some v /\ cell n X i j = Some v /\ cell n X j i = Some v.
Definition inv2_row (n : nat) (mat Y X : list T) (i : nat) : Prop :=
  exists l r, cell n mat i i = Some l /\ o_recip N l = Some r /\ forall j, j <= i -> inv2_entry n mat Y X r i j.

Lemma inv1_entry_frame n mat Y Y' r i j : j <= i ->
  (forall k, j <= k <= i -> cell n Y' j k = cell n Y j k) -> inv1_entry n mat Y r i j -> inv1_entry n mat Y' r i j.
Proof.
  intros Hji Hf (s & w & v & H1 & H2 & H3 & H4). exists s, w, v. split.
  - rewrite <- H1. apply isum_ext; auto. intros k Hk; apply Hf; lia.
  - split; [auto|split; [auto|]]. rewrite Hf by lia; auto.
Qed.

Lemma inv2_entry_frame n mat Y X X' r i j : j <= i < n ->
  (forall k, i <= k < n -> cell n X' j k = cell n X j k) -> cell n X' i j = cell n X i j ->
  inv2_entry n mat Y X r i j -> inv2_entry n mat Y X' r i j.
Proof.
  intros Hji Hf Hf' (y & s & w & v & H0 & H1 & H2 & H3 & H4 & H5). exists y, s, w, v. split; [auto|]. split.
  - rewrite <- H1. apply isum_ext; auto. intros k Hk; apply Hf; lia.
  - split; [auto|split; [auto|]]. rewrite Hf' by lia. rewrite Hf by lia; auto.
Qed.

Lemma isum_rd lo cnt (f : nat -> res T) (m x : nat -> option T) :
  (forall k, lo <= k < lo + cnt -> f k = bind (of_opt (m k)) (fun mv => bind (n_neg N mv) (fun nm => bind (of_opt (x k)) (fun iv => n_mul N nm iv)))) ->
  forall hi, hi = lo + cnt -> sum_range N lo hi f = of_opt (isum lo cnt m x).
Proof.
  intros Hf hi ->. unfold isum. rewrite osum_loop. apply sum_range_ext. intros k Hk. rewrite Hf by auto.
  rewrite of_opt_obind. apply bind_ext; intros mv _. rewrite of_opt_obind. apply bind_ext; intros nm _.
  rewrite of_opt_obind. reflexivity.
Qed.

Lemma phase1_spec n (mat inv0 : list T) : valid c n n mat -> valid c n n inv0 ->
  wp (invert_phase1 c N n mat inv0)
    (fun Y => same_tail n n inv0 Y /\ forall i, i < n -> inv1_col n mat Y i)
    (fun e => e = NumPanic /\ ~ (num_total N /\ diag_recip n mat)).
Proof.
  intros Hm Hv. pose proof (valid_bound _ _ _ _ Hm) as HBm. pose proof (valid_bound _ _ _ _ Hv) as HBv.
  unfold invert_phase1.
  eapply wp_mono; [apply (wp_for_range 0 n inv0 _ (fun i Y => same_tail n n inv0 Y /\ forall i', i' < i -> inv1_col n mat Y i') (fun e => e = NumPanic /\ ~ (num_total N /\ diag_recip n mat)))| |auto].
  - lia.
  - split; [split; auto|]. intros; lia.
  - intros i Y Hi [HY1 HY2]. assert (Hii : i * n + i < n * n) by (apply idx_lt; lia).
    assert (HL : length Y = length inv0) by apply HY1.
    rewrite idx_ok by lia. rewrite (rd_of_opt mat) by lia. fold (cell n mat i i).
    destruct (cell_some c n n mat i i Hm ltac:(lia) ltac:(lia)) as (l & Hl & _). rewrite Hl. cbn [of_opt bind].
    unfold n_recip. destruct (o_recip N l) as [r|] eqn:Hr; [|cbn; split; [reflexivity|intros [_ HD]; exact (HD i l ltac:(lia) Hl Hr)]]. cbn [of_opt bind].
    eapply wp_mono; [apply (wp_for_range 0 (S i) Y _ (fun j Y' => same_tail n n inv0 Y' /\
       (forall i', i' < i -> inv1_col n mat Y' i') /\ forall j', j' < j -> inv1_entry n mat Y' r i j') (fun e => e = NumPanic /\ ~ (num_total N /\ diag_recip n mat)))| |auto].
    + lia.
    + split; [auto|split; [auto|]]. intros; lia.
    + intros j Y' Hj (G1 & G2 & G3). assert (HL' : length Y' = length inv0) by apply G1.
      assert (Hji : j * n + i < n * n) by (apply idx_lt; lia).
      rewrite (isum_rd j (i - j) _ (fun k => cell n mat i k) (fun k => cell n Y' j k)); [| |lia].
      2:{ intros k Hk. assert (i * n + k < n * n) by (apply idx_lt; lia). assert (j * n + k < n * n) by (apply idx_lt; lia).
          rewrite idx_ok by lia. rewrite (rd_of_opt mat) by lia. apply bind_ext; intros mv _.
          apply bind_ext; intros nm _. rewrite idx_ok by lia. rewrite (rd_of_opt Y') by lia. reflexivity. }
      destruct (isum j (i - j) _ _) as [s|] eqn:Hs.
      2:{ cbn. split; [reflexivity|]. intros [HT _]. revert Hs. apply isum_total; auto.
          - intros k Hk. destruct (cell_some c n n mat i k Hm ltac:(lia) ltac:(lia)) as (u & Hu & _). congruence.
          - intros k Hk. destruct (cell_some c n n Y' j k (valid_length c n n inv0 Y' Hv HL') ltac:(lia) ltac:(lia)) as (u & Hu & _). congruence. } cbn [of_opt bind].
      unfold n_add. destruct (o_add N _ s) as [w|] eqn:Hw; [|cbn; split; [reflexivity|intros [HT _]; revert Hw; apply HT]]. cbn [of_opt bind].
      unfold n_mul. destruct (o_mul N w r) as [v|] eqn:Hmv; [|cbn; split; [reflexivity|intros [HT _]; revert Hmv; apply HT]]. cbn [of_opt bind].
      rewrite idx_ok by lia. rewrite wr_ok by lia. cbn [wp].
      assert (Hc : forall p q, p < n -> q < n -> (p, q) <> (j, i) -> cell n (upd Y' (j * n + i) v) p q = cell n Y' p q).
      { intros p q Hp Hq Hne. apply cell_inj; auto; lia. }
      split; [apply same_tail_upd; auto; lia|]. split.
      * intros i' Hi'. destruct (G2 i' Hi') as (l' & r' & K1 & K2 & K3). exists l', r'. split; [auto|split; [auto|]].
        intros j' Hj'. eapply inv1_entry_frame; [auto| |apply K3; auto]. intros k Hk. apply Hc; try lia. intros E; inversion E; lia.
      * intros j' Hj'. destruct (Nat.eq_dec j' j) as [->|Hne].
        -- exists s, w, v. split.
           ++ rewrite <- Hs. apply isum_ext; auto. intros k Hk. apply Hc; try lia. intros E; inversion E; lia.
           ++ split; [auto|split; [auto|]]. apply cell_upd_same. lia.
        -- eapply inv1_entry_frame; [lia| |apply G3; lia]. intros k Hk. apply Hc; try lia. intros E; inversion E; lia.
    + intros Y' (G1 & G2 & G3). split; [auto|]. intros i' Hi'. destruct (Nat.eq_dec i' i) as [->|].
      * exists l, r. split; [auto|split; [auto|]]. intros j Hj. apply G3; lia.
      * apply G2; lia.
  - auto.
Qed.

Lemma phase2_spec n (mat Y : list T) : 1 <= n -> valid c n n mat -> valid c n n Y ->
  wp (invert_phase2 c N n mat Y)
    (fun X => same_tail n n Y X /\ forall i, i < n -> inv2_row n mat Y X i)
    (fun e => e = NumPanic /\ ~ (num_total N /\ diag_recip n mat)).
Proof.
  intros Hn Hm Hv. pose proof (valid_bound _ _ _ _ Hm) as HBm. pose proof (valid_bound _ _ _ _ Hv) as HBv.
  unfold invert_phase2. rewrite usub_ok by lia. cbn [bind]. replace (S (n - 1)) with n by lia.
  eapply wp_mono; [apply (wp_for_down n Y _ (fun i X => same_tail n n Y X /\
      (forall p q, p < i -> q < i -> cell n X p q = cell n Y p q) /\ forall i', i <= i' < n -> inv2_row n mat Y X i') (fun e => e = NumPanic /\ ~ (num_total N /\ diag_recip n mat)))| |auto].
  - split; [split; auto|]. split; [auto|]. intros; lia.
  - intros i X Hi (HX1 & HX2 & HX3). assert (Hii : i * n + i < n * n) by (apply idx_lt; lia).
    assert (Hin : i < n * n) by nia.
    assert (HL : length X = length Y) by apply HX1.
    rewrite idx_ok by lia. rewrite (rd_of_opt mat) by lia. fold (cell n mat i i).
    destruct (cell_some c n n mat i i Hm ltac:(lia) ltac:(lia)) as (l & Hl & _). rewrite Hl. cbn [of_opt bind].
    unfold n_recip. destruct (o_recip N l) as [r|] eqn:Hr; [|cbn; split; [reflexivity|intros [_ HD]; exact (HD i l ltac:(lia) Hl Hr)]]. cbn [of_opt bind].
    eapply wp_mono; [apply (wp_for_range 0 (S i) X _ (fun j X' => same_tail n n Y X' /\
       (forall p q, p < i -> q < i -> cell n X' p q = cell n Y p q) /\
       (forall q, j <= q <= i -> cell n X' q i = cell n Y q i) /\
       (forall i', i < i' < n -> inv2_row n mat Y X' i') /\
       forall j', j' < j -> inv2_entry n mat Y X' r i j') (fun e => e = NumPanic /\ ~ (num_total N /\ diag_recip n mat)))| |auto].
    + lia.
    + split; [auto|split; [intros; apply HX2; lia|]]. split; [intros; apply HX2; lia|]. split; [intros; apply HX3; lia|]. intros; lia.
    + intros j X' Hj (G1 & G2 & G3 & G4 & G5). assert (HL' : length X' = length Y) by apply G1.
      assert (Hji : j * n + i < n * n) by (apply idx_lt; lia).
      assert (Hij : i * n + j < n * n) by (apply idx_lt; lia).
      rewrite idx_ok by lia. rewrite (rd_of_opt X') by lia. fold (cell n X' j i).
      rewrite G3 by lia.
      destruct (cell_some c n n Y j i Hv ltac:(lia) ltac:(lia)) as (y & Hy & _). rewrite Hy. cbn [of_opt bind].
      rewrite (proj2 (Nat.ltb_ge i j)) by lia.
      rewrite (uadd_ok c i 1) by lia. cbn [bind]. replace (i + 1) with (S i) by lia.
      rewrite (isum_rd (S i) (n - S i) _ (fun k => cell n mat k i) (fun k => cell n X' j k)); [| |lia].
      2:{ intros k Hk. assert (k * n + i < n * n) by (apply idx_lt; lia). assert (j * n + k < n * n) by (apply idx_lt; lia).
          rewrite idx_ok by lia. rewrite (rd_of_opt mat) by lia. apply bind_ext; intros mv _.
          apply bind_ext; intros nm _. rewrite idx_ok by lia. rewrite (rd_of_opt X') by lia. reflexivity. }
      destruct (isum (S i) (n - S i) _ _) as [s|] eqn:Hs.
      2:{ cbn. split; [reflexivity|]. intros [HT _]. revert Hs. apply isum_total; auto.
          - intros k Hk. destruct (cell_some c n n mat k i Hm ltac:(lia) ltac:(lia)) as (u & Hu & _). congruence.
          - intros k Hk. destruct (cell_some c n n X' j k (valid_length c n n Y X' Hv HL') ltac:(lia) ltac:(lia)) as (u & Hu & _). congruence. } cbn [of_opt bind].
      unfold n_add. destruct (o_add N _ s) as [w|] eqn:Hw; [|cbn; split; [reflexivity|intros [HT _]; revert Hw; apply HT]]. cbn [of_opt bind].
      unfold n_mul. destruct (o_mul N w r) as [v|] eqn:Hmv; [|cbn; split; [reflexivity|intros [HT _]; revert Hmv; apply HT]]. cbn [of_opt bind].
      rewrite idx_ok by lia. rewrite wr_ok by lia. cbn [bind].
      rewrite idx_ok by lia. rewrite wr_ok by (rewrite length_upd; lia). cbn [wp].
      assert (Hc : forall p q, p < n -> q < n -> (p, q) <> (j, i) -> (p, q) <> (i, j) ->
          cell n (upd (upd X' (i * n + j) v) (j * n + i) v) p q = cell n X' p q).
      { intros p q Hp Hq Hne Hne'. rewrite !cell_inj; auto; lia. }
      assert (HE1 : cell n (upd (upd X' (i * n + j) v) (j * n + i) v) j i = Some v).
      { apply cell_upd_same. rewrite length_upd; lia. }
      assert (HE2 : cell n (upd (upd X' (i * n + j) v) (j * n + i) v) i j = Some v).
      { destruct (Nat.eq_dec i j) as [->|Hne]; [exact HE1|]. rewrite cell_inj by (try lia; intros E; inversion E; lia).
        apply cell_upd_same. lia. }
      split; [apply same_tail_upd; [lia|lia|]; apply same_tail_upd; auto; lia|]. split; [|split; [|split]].
      * intros p q Hp Hq. rewrite Hc; try lia; [apply G2; auto| |]; intros E; inversion E; lia.
      * intros q Hq. rewrite Hc; try lia; [apply G3; lia| |]; intros E; inversion E; lia.
      * intros i' Hi'. destruct (G4 i' Hi') as (l' & r' & K1 & K2 & K3). exists l', r'. split; [auto|split; [auto|]].
        intros j' Hj'. eapply inv2_entry_frame; [lia| | |apply K3; auto].
        -- intros k Hk. apply Hc; try lia; intros E; inversion E; lia.
        -- apply Hc; try lia; intros E; inversion E; lia.
      * intros j' Hj'. destruct (Nat.eq_dec j' j) as [->|Hne].
        -- exists y, s, w, v. split; [auto|]. split.
           ++ rewrite <- Hs. apply isum_ext; auto. intros k Hk. apply Hc; try lia; intros E; inversion E; lia.
           ++ split; [auto|split; [auto|]]. auto.
        -- eapply inv2_entry_frame; [lia| | |apply G5; lia].
           ++ intros k Hk. apply Hc; try lia; intros E; inversion E; lia.
           ++ apply Hc; try lia; intros E; inversion E; lia.
    + intros X' (G1 & G2 & G3 & G4 & G5). split; [auto|]. split; [auto|]. intros i' Hi'. destruct (Nat.eq_dec i' i) as [->|].
      * exists l, r. split; [auto|split; [auto|]]. intros j Hj. apply G5; lia.
      * apply G4; lia.
  - intros X (G1 & G2 & G3). split; [auto|]. intros i Hi. apply G3; lia.
Qed.

Lemma invert_spec n (mat inv0 : list T) : 1 <= n -> valid c n n mat -> valid c n n inv0 ->
  wp (invert_l_cholesky c N n mat inv0)
    (fun X => same_tail n n inv0 X /\ exists Y, (forall i, i < n -> inv1_col n mat Y i) /\ (forall i, i < n -> inv2_row n mat Y X i))
    (fun e => e = NumPanic /\ ~ (num_total N /\ diag_recip n mat)).
Proof.
  intros Hn Hm Hv. unfold invert_l_cholesky. apply wp_bind.
  eapply wp_mono; [apply phase1_spec; auto| |auto].
  intros Y [HY1 HY2]. eapply wp_mono; [apply phase2_spec; auto| |auto].
  - eapply valid_length; [exact Hv|apply HY1].
  - intros X [HX1 HX2]. split.
    + destruct HX1 as [A1 A2], HY1 as [B1 B2]. split; [congruence|]. intros p Hp. rewrite A2; auto.
    + exists Y; auto.
Qed.

(** bitwise symmetry of the result *)
Lemma invert_symmetric n (mat inv0 X : list T) : 1 <= n -> valid c n n mat -> valid c n n inv0 ->
  invert_l_cholesky c N n mat inv0 = Ok X ->
  forall i j, i < n -> j < n -> cell n X i j = cell n X j i.
Proof.
  intros Hn Hm Hv HX i j Hi Hj. pose proof (invert_spec n mat inv0 Hn Hm Hv) as H. rewrite HX in H. cbn [wp] in H.
  destruct H as (_ & Y & _ & H2).
  destruct (Nat.le_gt_cases j i) as [Hle|Hlt].
  - destruct (H2 i Hi) as (l & r & _ & _ & H3). destruct (H3 j Hle) as (? & ? & ? & v & _ & _ & _ & _ & -> & ->). reflexivity.
  - destruct (H2 j Hj) as (l & r & _ & _ & H3). destruct (H3 i ltac:(lia)) as (? & ? & ? & v & _ & _ & _ & _ & -> & ->). reflexivity.
Qed.

(** ** two runs: only the lower triangle (with diagonal) of the factor matters *)
Definition lower (n p : nat) : Prop := exists i j, p = i * n + j /\ j <= i < n.

Lemma isum_two lo hi (f g : nat -> res T) : (forall k, lo <= k < hi -> f k = g k) -> sum_range N lo hi f = sum_range N lo hi g.
Proof. apply sum_range_ext. Qed.

Lemma phase1_two_runs (D : nat -> Prop) n (m1 m2 v1 v2 : list T) :
  valid c n n m1 -> valid c n n m2 -> valid c n n v1 -> valid c n n v2 ->
  agree_on (lower n) m1 m2 -> agree_on D v1 v2 ->
  rres (fun r1 r2 => length r1 = length v1 /\ length r2 = length v2 /\ agree_on (fun p => D p \/ upper n p) r1 r2)
    (invert_phase1 c N n m1 v1) (invert_phase1 c N n m2 v2).
Proof.
  intros Hm1 Hm2 Hv1 Hv2 Hm Hv.
  pose proof (valid_bound _ _ _ _ Hm1) as HBm1. pose proof (valid_bound _ _ _ _ Hv1) as HBv1.
  pose proof (valid_bound _ _ _ _ Hm2) as HBm2. pose proof (valid_bound _ _ _ _ Hv2) as HBv2.
  unfold invert_phase1.
  eapply rres_mono; [apply (rres_for_range_i (fun i r1 r2 => length r1 = length v1 /\ length r2 = length v2 /\
     agree_on (fun p => D p \/ exists j k, p = j * n + k /\ j <= k < i) r1 r2) 0 n)|].
  - lia.
  - split; [auto|split; [auto|]]. eapply agree_on_sub; [|exact Hv]. intros p [?|(j & k & ? & ?)]; [auto|lia].
  - intros i r1 r2 Hi (L1 & L2 & HA). assert (Hii : i * n + i < n * n) by (apply idx_lt; lia).
    rewrite !idx_ok by lia. rewrite (agree_rd _ m1 m2 (i * n + i) Hm) by (exists i, i; split; [auto|lia]).
    destruct (rd m2 (i * n + i)) as [l|]; [|cbn; reflexivity]. cbn [bind].
    destruct (n_recip N l) as [r|]; [|cbn; reflexivity]. cbn [bind].
    eapply rres_mono; [apply (rres_for_range_i (fun q r1 r2 => length r1 = length v1 /\ length r2 = length v2 /\
     agree_on (fun p => D p \/ exists j k, p = j * n + k /\ j <= k /\ (k < i \/ (k = i /\ j < q))) r1 r2) 0 (S i))|].
    + lia.
    + split; [auto|split; [auto|]]. eapply agree_on_sub; [|exact HA]. intros p [?|(j & k & -> & ? & ?)]; [auto|right].
      exists j, k. split; [auto|lia].
    + intros j s1 s2 Hj (M1 & M2 & HB). assert (Hji : j * n + i < n * n) by (apply idx_lt; lia).
      erewrite (sum_range_ext N j i).
      2:{ intros k Hk. assert (i * n + k < n * n) by (apply idx_lt; lia). assert (j * n + k < n * n) by (apply idx_lt; lia).
          rewrite idx_ok by lia. rewrite (agree_rd _ m1 m2 (i * n + k) Hm) by (exists i, k; split; [auto|lia]).
          apply bind_ext; intros mv _. apply bind_ext; intros nm _. rewrite idx_ok by lia.
          rewrite (agree_rd _ s1 s2 (j * n + k) HB) by (right; exists j, k; split; [auto|lia]).
          reflexivity. }
      match goal with |- rres _ (bind (sum_range N j i ?f) _) (bind (sum_range N j i ?g) _) =>
        replace (sum_range N j i g) with (sum_range N j i f) end.
      2:{ apply sum_range_ext. intros k Hk. assert (i * n + k < n * n) by (apply idx_lt; lia). assert (j * n + k < n * n) by (apply idx_lt; lia).
          rewrite idx_ok by lia. apply bind_ext; intros mv _. apply bind_ext; intros nm _. rewrite idx_ok by lia. reflexivity. }
      destruct (sum_range N j i _) as [s|]; [|cbn; reflexivity]. cbn [bind].
      destruct (n_add N _ s) as [w|]; [|cbn; reflexivity]. cbn [bind].
      destruct (n_mul N w r) as [v|]; [|cbn; reflexivity]. cbn [bind].
      rewrite !idx_ok by lia. rewrite !wr_ok by lia. cbn [rres]. rewrite !length_upd.
      split; [auto|split; [auto|]]. eapply agree_on_sub; [|apply agree_on_upd; [exact HB|lia|lia]].
      intros p [?|(j' & k & -> & ? & [?|[-> ?]])]; [left; auto| |].
      * left; right. exists j', k. split; [auto|lia].
      * destruct (Nat.eq_dec j' j) as [->|]; [right; auto|left; right]. exists j', i. split; [auto|lia].
    + intros s1 s2 (M1 & M2 & HB). split; [auto|split; [auto|]]. eapply agree_on_sub; [|exact HB].
      intros p [?|(j' & k & -> & ? & ?)]; [left; auto|right]. exists j', k. split; [auto|lia].
  - intros s1 s2 (M1 & M2 & HB). split; [auto|split; [auto|]]. eapply agree_on_sub; [|exact HB].
    intros p [?|(j' & k & -> & ?)]; [left; auto|right]. exists j', k. split; [auto|lia].
Qed.

Lemma phase2_two_runs (D : nat -> Prop) n (m1 m2 v1 v2 : list T) :
  1 <= n -> valid c n n m1 -> valid c n n m2 -> valid c n n v1 -> valid c n n v2 ->
  (forall p, upper n p -> D p) -> agree_on (lower n) m1 m2 -> agree_on D v1 v2 ->
  rres (fun r1 r2 => length r1 = length v1 /\ length r2 = length v2 /\ agree_on (fun p => D p \/ p < n * n) r1 r2)
    (invert_phase2 c N n m1 v1) (invert_phase2 c N n m2 v2).
Proof.
  intros Hn Hm1 Hm2 Hv1 Hv2 HD Hm Hv.
  pose proof (valid_bound _ _ _ _ Hm1) as HBm1. pose proof (valid_bound _ _ _ _ Hv1) as HBv1.
  pose proof (valid_bound _ _ _ _ Hm2) as HBm2. pose proof (valid_bound _ _ _ _ Hv2) as HBv2.
  unfold invert_phase2. rewrite usub_ok by lia. cbn [bind]. replace (S (n - 1)) with n by lia.
  eapply rres_mono; [apply (rres_for_down_i (fun i r1 r2 => length r1 = length v1 /\ length r2 = length v2 /\
     agree_on (fun p => D p \/ exists j k, p = j * n + k /\ i <= j < n /\ k < n) r1 r2) n)|].
  - split; [auto|split; [auto|]]. eapply agree_on_sub; [|exact Hv]. intros p [?|(j & k & ? & ?)]; [auto|lia].
  - intros i r1 r2 Hi (L1 & L2 & HA). assert (Hii : i * n + i < n * n) by (apply idx_lt; lia).
    assert (Hin : i < n * n) by nia.
    rewrite !idx_ok by lia. rewrite (agree_rd _ m1 m2 (i * n + i) Hm) by (exists i, i; split; [auto|lia]).
    destruct (rd m2 (i * n + i)) as [l|]; [|cbn; reflexivity]. cbn [bind].
    destruct (n_recip N l) as [r|]; [|cbn; reflexivity]. cbn [bind].
    eapply rres_mono; [apply (rres_for_range_i (fun q r1 r2 => length r1 = length v1 /\ length r2 = length v2 /\
     agree_on (fun p => D p \/ exists j k, p = j * n + k /\ j < n /\ k < n /\ (i < j \/ (j = i /\ k < q))) r1 r2) 0 (S i))|].
    + lia.
    + split; [auto|split; [auto|]]. eapply agree_on_sub; [|exact HA]. intros p [?|(j & k & -> & ? & ? & ?)]; [auto|right].
      exists j, k. split; [auto|lia].
    + intros j s1 s2 Hj (M1 & M2 & HB). assert (Hji : j * n + i < n * n) by (apply idx_lt; lia).
      assert (Hij : i * n + j < n * n) by (apply idx_lt; lia).
      rewrite !idx_ok by lia.
      rewrite (agree_rd _ s1 s2 (j * n + i) HB) by (left; apply HD; exists j, i; split; [auto|lia]).
      destruct (rd s2 (j * n + i)) as [y|]; [|cbn; reflexivity]. cbn [bind].
      rewrite !uadd_ok by lia. cbn [bind]. replace (i + 1) with (S i) by lia.
      match goal with |- rres _ (bind (sum_range N (S i) n ?f) _) (bind (sum_range N (S i) n ?g) _) =>
        replace (sum_range N (S i) n g) with (sum_range N (S i) n f) end.
      2:{ apply sum_range_ext. intros k Hk. assert (k * n + i < n * n) by (apply idx_lt; lia). assert (j * n + k < n * n) by (apply idx_lt; lia).
          rewrite !idx_ok by lia. rewrite (agree_rd _ m1 m2 (k * n + i) Hm) by (exists k, i; split; [auto|lia]).
          apply bind_ext; intros mv _. apply bind_ext; intros nm _. rewrite !idx_ok by lia.
          rewrite (agree_rd _ s1 s2 (j * n + k) HB) by (left; apply HD; exists j, k; split; [auto|lia]).
          reflexivity. }
      destruct (sum_range N (S i) n _) as [s|]; [|cbn; reflexivity]. cbn [bind].
      destruct (n_add N _ s) as [w|]; [|cbn; reflexivity]. cbn [bind].
      destruct (n_mul N w r) as [v|]; [|cbn; reflexivity]. cbn [bind].
      rewrite !idx_ok by lia. rewrite !wr_ok by lia. cbn [bind].
      rewrite !idx_ok by lia. rewrite !wr_ok by (rewrite length_upd; lia). cbn [rres]. rewrite !length_upd.
      split; [auto|split; [auto|]]. eapply agree_on_sub; [|apply agree_on_upd; [apply agree_on_upd; [exact HB|lia|lia]|rewrite length_upd; lia|rewrite length_upd; lia]].
      intros p [?|(j' & k & -> & ? & ? & [?|[-> ?]])]; [left; left; left; auto| |].
      * left; left; right. exists j', k. split; [auto|lia].
      * destruct (Nat.eq_dec k j) as [->|]; [left; right; auto|left; left; right]. exists i, k. split; [auto|lia].
    + intros s1 s2 (M1 & M2 & HB). split; [auto|split; [auto|]]. eapply agree_on_sub; [|exact HB].
      intros p [?|(j' & k & -> & ? & ?)]; [left; auto|].
      destruct (Nat.eq_dec j' i) as [->|].
      * destruct (Nat.le_gt_cases k i).
        -- right. exists i, k. split; [auto|lia].
        -- left. apply HD. exists i, k. split; [auto|lia].
      * right. exists j', k. split; [auto|lia].
  - intros s1 s2 (M1 & M2 & HB). split; [auto|split; [auto|]]. eapply agree_on_sub; [|exact HB].
    intros p [?|Hp]; [left; auto|]. destruct (idx_split_lt p n n Hp) as (j & k & -> & ? & ?).
    right. exists j, k. split; [auto|lia].
Qed.

Lemma invert_two_runs (D : nat -> Prop) n (m1 m2 v1 v2 : list T) :
  1 <= n -> valid c n n m1 -> valid c n n m2 -> valid c n n v1 -> valid c n n v2 ->
  agree_on (lower n) m1 m2 -> agree_on D v1 v2 ->
  rres (fun r1 r2 => length r1 = length v1 /\ length r2 = length v2 /\ agree_on (fun p => D p \/ p < n * n) r1 r2)
    (invert_l_cholesky c N n m1 v1) (invert_l_cholesky c N n m2 v2).
Proof.
  intros Hn Hm1 Hm2 Hv1 Hv2 Hm Hv. unfold invert_l_cholesky.
  eapply rres_bind; [apply (phase1_two_runs D); eauto|].
  intros r1 r2 (L1 & L2 & HA) _ _.
  eapply rres_mono; [apply (phase2_two_runs (fun p => D p \/ upper n p)); eauto|].
  - exact (valid_length c n n v1 r1 Hv1 L1).
  - exact (valid_length c n n v2 r2 Hv2 L2).
  - intros s1 s2 (M1 & M2 & HB). split; [congruence|split; [congruence|]]. eapply agree_on_sub; [|exact HB].
    intros p [?|?]; auto.
Qed.

End Inv.
