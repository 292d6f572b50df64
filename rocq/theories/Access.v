(** * Cell access, row / column copies, buffered product: proofs *)
From Verif Require Import Spec Matrix Wp Kernels.

(** ** relational reasoning: two runs end the same way, results related *)
Lemma rres_bind {A B A' B'} (Rel : A -> B -> Prop) (Rel' : A' -> B' -> Prop) m1 m2 k1 k2 :
  rres Rel m1 m2 -> (forall a b, Rel a b -> m1 = Ok a -> m2 = Ok b -> rres Rel' (k1 a) (k2 b)) -> rres Rel' (bind m1 k1) (bind m2 k2).
Proof. destruct m1, m2; simpl; try contradiction; auto. Qed.
Lemma rres_mono {A B} (R1 R2 : A -> B -> Prop) m1 m2 : rres R1 m1 m2 -> (forall a b, R1 a b -> R2 a b) -> rres R2 m1 m2.
Proof. destruct m1, m2; simpl; auto. Qed.
Lemma rres_eq {A} (m1 m2 : res A) : m1 = m2 -> rres eq m1 m2.
Proof. intros ->; destruct m2; simpl; auto. Qed.
Lemma rres_eq_inv {A} (m1 m2 : res A) : rres eq m1 m2 -> m1 = m2.
Proof. destruct m1, m2; simpl; intros; subst; tauto. Qed.

Lemma rres_for_down {S1 S2} (Rel : S1 -> S2 -> Prop) n s1 s2 b1 b2 :
  Rel s1 s2 -> (forall k s1 s2, k < n -> Rel s1 s2 -> rres Rel (b1 k s1) (b2 k s2)) ->
  rres Rel (for_down n s1 b1) (for_down n s2 b2).
Proof.
  revert s1 s2; induction n as [|n IH]; intros s1 s2 Hs Hb; simpl; [exact Hs|].
  eapply rres_bind; [apply Hb; auto|]. intros; apply IH; auto.
Qed.

Lemma rres_for_range {S1 S2} (Rel : S1 -> S2 -> Prop) lo hi s1 s2 b1 b2 :
  Rel s1 s2 -> (forall k s1 s2, lo <= k < hi -> Rel s1 s2 -> rres Rel (b1 k s1) (b2 k s2)) ->
  rres Rel (for_range lo hi s1 b1) (for_range lo hi s2 b2).
Proof.
  remember (hi - lo) as d eqn:Hd. revert lo s1 s2 Hd; induction d as [|d IH]; intros lo s1 s2 Hd Hs Hb.
  - rewrite !for_range_nil by lia. exact Hs.
  - rewrite !for_range_cons by lia. eapply rres_bind; [apply Hb; auto; lia|].
    intros a b Hab _ _. apply IH; auto; [lia|]. intros; apply Hb; auto; lia.
Qed.

(** ** C01, C02 *)
Section Cells.
Context {T : Type} (c : cfg).

Lemma get_at_cell R C (m : list T) i j : valid c R C m -> i < R -> j < C ->
  exists v, cell C m i j = Some v /\ get_at c C m i j = Ok v.
Proof.
  intros Hm Hi Hj. destruct (cell_some c R C m i j Hm Hi Hj) as (v & Hv & Hr).
  destruct (valid_cell c R C m i j Hm Hi Hj). exists v; split; auto. unfold get_at. rewrite idx_ok by lia. exact Hr.
Qed.

Lemma set_at_cell R C (m : list T) i j v : valid c R C m -> i < R -> j < C ->
  set_at c C m i j v = Ok (upd m (i * C + j) v).
Proof.
  intros Hm Hi Hj. destruct (valid_cell c R C m i j Hm Hi Hj). unfold set_at. rewrite idx_ok by lia. apply wr_ok; lia.
Qed.

Lemma set_get R C (m : list T) i j v : valid c R C m -> i < R -> j < C ->
  exists m', set_at c C m i j v = Ok m'
    /\ length m' = length m
    /\ get_at c C m' i j = Ok v
    /\ (forall i' j', i' < R -> j' < C -> (i', j') <> (i, j) -> get_at c C m' i' j' = get_at c C m i' j')
    /\ (forall p, R * C <= p -> nth_error m' p = nth_error m p).
Proof.
  intros Hm Hi Hj. exists (upd m (i * C + j) v). rewrite (set_at_cell R) by auto.
  destruct (valid_cell c R C m i j Hm Hi Hj).
  split; [auto|]. split; [apply length_upd|]. split; [|split].
  - unfold get_at. rewrite idx_ok by lia. apply rd_upd_same; lia.
  - intros i' j' Hi' Hj' Hne. destruct (valid_cell c R C m i' j' Hm Hi' Hj').
    unfold get_at. rewrite !idx_ok by lia. apply rd_upd_other.
    intros Heq. apply idx_inj in Heq; auto. destruct Heq; subst; congruence.
  - intros p Hp. apply nth_error_upd_other. pose proof (idx_lt i j R C Hi Hj). lia.
Qed.

(** what [get] really does for any row / column: it reads flat position row*COLS+col *)
Lemma get_at_flat C (m : list T) i j : slice_ok c m -> i * C + j <= usize_max c -> get_at c C m i j = rd m (i * C + j).
Proof. intros _ H. unfold get_at. rewrite idx_ok by lia. reflexivity. Qed.

(** a flat position outside the buffer is always rejected, as long as the index
    computation does not wrap; with overflow checks it is rejected always *)
Lemma get_at_oob C (m : list T) i j : slice_ok c m -> length m <= i * C + j ->
  overflow_checks c = true \/ i * C + j <= usize_max c ->
  exists e, get_at c C m i j = Panic e.
Proof.
  intros Hm Hl Hov. unfold get_at, umul.
  destruct (Nat.leb_spec (i * C) (usize_max c)).
  - cbn [bind]. unfold uadd. destruct (Nat.leb_spec (i * C + j) (usize_max c)).
    + cbn [bind]. unfold rd. rewrite (proj2 (nth_error_None m _)) by lia. eauto.
    + destruct Hov as [->|]; [|lia]. cbn; eauto.
  - destruct Hov as [->|]; [|lia]. cbn; eauto.
Qed.
Lemma set_at_oob C (m : list T) i j v : slice_ok c m -> length m <= i * C + j ->
  overflow_checks c = true \/ i * C + j <= usize_max c ->
  exists e, set_at c C m i j v = Panic e.
Proof.
  intros Hm Hl Hov. unfold set_at, umul.
  destruct (Nat.leb_spec (i * C) (usize_max c)).
  - cbn [bind]. unfold uadd. destruct (Nat.leb_spec (i * C + j) (usize_max c)).
    + cbn [bind]. unfold wr. rewrite (proj2 (Nat.ltb_ge _ _)) by lia. eauto.
    + destruct Hov as [->|]; [|lia]. cbn; eauto.
  - destruct Hov as [->|]; [|lia]. cbn; eauto.
Qed.

(** exact-size buffer: a bad row is rejected *)
Lemma bad_row_rejected R C (m : list T) i j v : slice_ok c m -> length m = R * C -> R <= i ->
  overflow_checks c = true \/ i * C + j <= usize_max c ->
  (exists e, get_at c C m i j = Panic e) /\ (exists e, set_at c C m i j v = Panic e).
Proof.
  intros Hm Hl Hi Hov. assert (length m <= i * C + j) by nia.
  split; [apply get_at_oob|apply set_at_oob]; auto.
Qed.

(** a bad column inside the buffer reads the next row's cell, for every matrix with at least two rows *)
Lemma bad_column_aliases R C (m : list T) i j : valid c R C m -> i + 1 < R -> j < C ->
  get_at c C m i (C + j) = get_at c C m (i + 1) j.
Proof.
  intros Hm Hi Hj. destruct (valid_cell c R C m (i + 1) j Hm Hi Hj).
  unfold get_at. rewrite !idx_ok by lia. f_equal. lia.
Qed.

(** with wrapping arithmetic a huge row index is an alias of row 0 *)
Lemma wrap_aliases h (m : list T) : overflow_checks c = false -> usize_max c + 1 = 2 * h -> 1 < usize_max c ->
  get_at c 2 m h 0 = get_at c 2 m 0 0.
Proof.
  intros Hov Hu H1. unfold get_at, umul. replace (h * 2) with (S (usize_max c)) by lia.
  rewrite (proj2 (Nat.leb_gt _ _)) by lia. rewrite Hov, Nat.mod_same by lia. reflexivity.
Qed.

End Cells.

(** ** isize arithmetic inside a slice *)
Section Isize.
Context (c : cfg).
Lemma umaxZ_pos : (0 <= umaxZ c)%Z. Proof. unfold umaxZ; lia. Qed.
Lemma imax_le : (2 * imax c <= umaxZ c)%Z.
Proof. unfold imax. apply Z.mul_div_le; lia. Qed.
Lemma imax_nonneg : (0 <= imax c)%Z.
Proof. unfold imax. apply Z.div_pos; unfold umaxZ; lia. Qed.
Lemma as_isize_ok u : (Z.of_nat u <= imax c)%Z -> as_isize c u = Z.of_nat u.
Proof. intros H. unfold as_isize. rewrite (proj2 (Z.leb_le _ _) H). reflexivity. Qed.
Lemma as_usize_ok u : (Z.of_nat u <= imax c)%Z -> as_usize c (Z.of_nat u) = u.
Proof. intros H. unfold as_usize. pose proof imax_le; pose proof imax_nonneg.
  rewrite Z.mod_small by lia. apply Nat2Z.id. Qed.
Lemma iop_ok z : (0 <= z <= imax c)%Z -> iop c z = Ok z.
Proof. intros H. unfold iop, imin. pose proof imax_nonneg.
  rewrite (proj2 (Z.leb_le _ _)) by lia. rewrite (proj2 (Z.leb_le _ _)) by lia. reflexivity. Qed.
End Isize.

(** ** C03, C04 *)
Section Copies.
Context {T : Type} (c : cfg).

Lemma rd_wr_fill (src tgt : list T) q p :
  q < length src -> p < length tgt ->
  (v <- rd src q ;; wr tgt p v) = fill_body (fun _ _ => nth_error src q) p tgt.
Proof.
  intros Hq Hp. unfold fill_body. destruct (rd_some tgt p Hp) as (w & _ & ->). cbn [bind].
  destruct (rd_some src q Hq) as (v & -> & ->). reflexivity.
Qed.

Lemma fill_body_ext (f g : nat -> T -> option T) p s : (forall v, f p v = g p v) -> fill_body f p s = fill_body g p s.
Proof. intros H. unfold fill_body. apply bind_ext; intros v _. rewrite H. reflexivity. Qed.

Lemma get_column_copy_cellwise R C (src : list T) col tgt :
  1 <= R -> col < C -> valid c R C src -> valid c R 1 tgt ->
  cellwise R 1 tgt (fun r _ _ => cell C src r col) (get_column_copy c R C src col tgt).
Proof.
  intros HR Hcol Hs Ht.
  pose proof (valid_bound _ _ _ _ Hs) as HBs. pose proof (valid_bound _ _ _ _ Ht) as HBt.
  assert (Hss : (Z.of_nat (length src) <= imax c)%Z) by apply Hs.
  assert (Hst : (Z.of_nat (length tgt) <= imax c)%Z) by apply Ht.
  assert (HRC : forall r, r < R -> r * C + col < length src) by (intros r Hr; pose proof (idx_lt r col R C Hr Hcol); lia).
  assert (HCl : C <= length src) by nia.
  set (g := fun r (_ : T) => nth_error src (r * C + col)).
  eapply fill_cellwise with (g := g); [lia| |].
  { intros i j v Hi Hj. unfold g, cell. f_equal. assert (j = 0) by lia. subst. f_equal. lia. }
  rewrite Nat.mul_1_r.
  assert (Heq : get_column_copy c R C src col tgt = for_down R tgt (fill_body g)).
  { unfold get_column_copy. rewrite usub_ok by lia. cbn [bind].
    pose proof (HRC (R - 1) ltac:(lia)) as HR1.
    rewrite !as_isize_ok by lia. unfold imul. rewrite <- Nat2Z.inj_mul. rewrite (iop_ok c (Z.of_nat ((R - 1) * C))) by (revert HR1; generalize ((R - 1) * C); intros; lia).
    cbn [bind]. unfold iadd at 1. rewrite <- Nat2Z.inj_add.
    rewrite iop_ok by (revert HR1; generalize ((R - 1) * C); intros; lia). cbn [bind].
    rewrite !as_usize_ok by (revert HR1; generalize ((R - 1) * C); intros; lia).
    destruct R as [|R']; [lia|]. cbn [for_down]. replace (S R' - 1) with R' in * by lia.
    rewrite <- (fill_body_ext (fun _ _ => nth_error src (R' * C + col)) g R' tgt) by reflexivity.
    rewrite <- rd_wr_fill by lia. rewrite bind_assoc. apply bind_ext; intros v _.
    apply bind_ext; intros s Hws.
    assert (Hlen : length s = length tgt).
    { unfold wr in Hws. destruct (_ <? _); inversion Hws. apply length_upd. }
    assert (Hlen' : S R' <= length s) by lia.
    change (Z.of_nat R', Z.of_nat (R' * C + col), s) with
      ((fun k s => (Z.of_nat k, Z.of_nat (k * C + col), s)) R' s).
    rewrite (while_for_down (fun k s => (Z.of_nat k, Z.of_nat (k * C + col), s)) R' (S (S R')) s _ _
       (fun k s => w <- rd src (k * C + col) ;; wr s k w)).
    - rewrite bind_assoc. cbn [bind]. rewrite bind_ret.
      apply for_down_ext with (P := fun _ s => length s = length tgt); [exact Hlen|].
      intros k s' Hk Hs'. split.
      + rewrite rd_wr_fill; [reflexivity| |lia]. apply HRC; lia.
      + apply fill_body_len; lia.
    - lia.
    - intros s'. reflexivity.
    - intros k s' Hk. split.
      + apply negb_true_iff, Z.eqb_neq. lia.
      + unfold isub. pose proof (HRC (S k) ltac:(lia)) as HSk.
        rewrite (iop_ok c (Z.of_nat (S k) - 1)) by lia. cbn [bind].
        replace (Z.of_nat (S k * C + col) - Z.of_nat C)%Z with (Z.of_nat (k * C + col)) by lia.
        rewrite iop_ok by lia. cbn [bind].
        replace (Z.of_nat (S k) - 1)%Z with (Z.of_nat k) by lia.
        rewrite !as_usize_ok by lia. rewrite bind_assoc. reflexivity. }
  rewrite Heq. apply fill_down. lia.
Qed.

(** what [get_row_copy] really copies *)
Lemma get_row_copy_cellwise R C (data : list T) row tgt :
  1 <= C -> row < R -> valid c R C data -> valid c C 1 tgt ->
  cellwise C 1 tgt (fun k _ _ => nth_error data (row * (C - 1) + k)) (get_row_copy c C data row tgt).
Proof.
  intros HC Hrow Hs Ht.
  pose proof (valid_bound _ _ _ _ Hs) as HBs. pose proof (valid_bound _ _ _ _ Ht) as HBt.
  assert (HRC : forall k, k < C -> row * (C - 1) + k < length data) by (intros k Hk; nia).
  assert (Hr : row < length data) by nia.
  set (g := fun k (_ : T) => nth_error data (row * (C - 1) + k)).
  eapply fill_cellwise with (g := g); [lia| |].
  { intros i j v Hi Hj. unfold g, cell. f_equal. assert (j = 0) by lia. subst. f_equal. lia. }
  rewrite Nat.mul_1_r.
  assert (Heq : get_row_copy c C data row tgt = for_down C tgt (fill_body g)).
  { unfold get_row_copy. rewrite usub_ok by lia. cbn [bind].
    rewrite uadd_ok by lia. cbn [bind].
    destruct C as [|C']; [lia|]. replace (S C' - 1) with C' in * by lia.
    pose proof (HRC C' ltac:(lia)) as HL.
    rewrite umul_ok by lia. cbn [bind].
    replace ((row + 1) * C') with (row * C' + C') by lia.
    cbn [for_down].
    rewrite <- (fill_body_ext (fun _ _ => nth_error data (row * C' + C')) g C' tgt) by (unfold g; intros; replace (S C' - 1) with C' by lia; reflexivity).
    rewrite <- rd_wr_fill by lia. rewrite bind_assoc. apply bind_ext; intros v _.
    apply bind_ext; intros s Hws.
    assert (Hlen : length s = length tgt).
    { unfold wr in Hws. destruct (_ <? _); inversion Hws. apply length_upd. }
    change (C', row * C' + C', s) with ((fun k s => (k, row * C' + k, s)) C' s).
    rewrite (while_for_down (fun k s => (k, row * C' + k, s)) C' (S (S C')) s _ _
       (fun k s => w <- rd data (row * C' + k) ;; wr s k w)).
    - rewrite bind_assoc. cbn [bind]. rewrite bind_ret.
      apply for_down_ext with (P := fun _ s => length s = length tgt); [exact Hlen|].
      intros k s' Hk Hs'. split.
      + rewrite rd_wr_fill; [|apply HRC; lia|lia]. apply fill_body_ext. intros w; unfold g.
        replace (S C' - 1) with C' by lia. reflexivity.
      + apply fill_body_len; lia.
    - lia.
    - intros s'. reflexivity.
    - intros k s' Hk. split.
      + reflexivity.
      + rewrite usub_ok by lia. cbn [bind].
        rewrite usub_ok by lia. cbn [bind].
        replace (S k - 1) with k by lia. replace (row * C' + S k - 1) with (row * C' + k) by lia.
        rewrite bind_assoc. reflexivity. }
  rewrite Heq. apply fill_down. lia.
Qed.

(** it is right for row 0 *)
Lemma get_row_copy_row0 R C (data : list T) tgt :
  1 <= C -> 1 <= R -> valid c R C data -> valid c C 1 tgt ->
  cellwise C 1 tgt (fun k _ _ => cell C data 0 k) (get_row_copy c C data 0 tgt).
Proof.
  intros HC HR Hs Ht. eapply cellwise_ext; [|apply (get_row_copy_cellwise R); auto].
  intros k j v Hk Hj. unfold cell. reflexivity.
Qed.

(** ... and wrong for every other row of every matrix: it copies the cells that
    lie [row] positions earlier *)
Lemma get_row_copy_wrong R C row (v w : T) :
  1 <= C -> 1 <= row < R -> v <> w -> (Z.of_nat (R * C) <= imax c)%Z ->
  exists data tgt out, valid c R C data /\ valid c C 1 tgt /\
    get_row_copy c C data row tgt = Ok out /\
    cell C data row (C - 1) = Some v /\ nth_error out (C - 1) = Some w.
Proof.
  intros HC Hrow Hvw Hmax.
  set (data := upd (repeat w (R * C)) (row * C + (C - 1)) v).
  assert (Hp : row * C + (C - 1) < R * C) by (apply idx_lt; lia).
  assert (Hld : length data = R * C) by (unfold data; rewrite length_upd, repeat_length; auto).
  assert (HCR : C <= R * C) by nia.
  assert (Hd : valid c R C data) by (split; [lia|unfold slice_ok; rewrite Hld; auto]).
  assert (Ht : valid c C 1 (repeat v C)) by (split; [rewrite repeat_length; lia|unfold slice_ok; rewrite repeat_length; lia]).
  pose proof (get_row_copy_cellwise R C data row (repeat v C) HC ltac:(lia) Hd Ht) as H.
  destruct (get_row_copy c C data row (repeat v C)) as [out|e] eqn:E; cbn [cellwise] in H.
  - exists data, (repeat v C), out. repeat split; try apply Hd; try apply Ht; auto.
    + unfold cell, data. apply nth_error_upd_same. rewrite repeat_length. auto.
    + destruct H as (_ & H & _).
      specialize (H (C - 1) 0 v ltac:(lia) ltac:(lia)). unfold cell in H at 1.
      rewrite nth_error_repeat in H by lia. specialize (H eq_refl).
      unfold cell in H. replace ((C - 1) * 1 + 0) with (C - 1) in H by lia. rewrite H.
      unfold data. rewrite nth_error_upd_other by nia. apply nth_error_repeat. nia.
  - exfalso. destruct H as (_ & i & j & u & Hi & Hj & _ & Hn).
    apply nth_error_None in Hn. rewrite Hld in Hn. nia.
Qed.
End Copies.

(** ** C06 *)
Section Buffered.
Context {T : Type} (c : cfg) (N : num T).

(** debug builds insist on an exactly sized scratch buffer (traits.rs:227-228) *)
Definition aux_ok (K : nat) (aux : list T) : Prop :=
  valid c K 1 aux /\ (no_assert c = true \/ debug_assertions c = false \/ length aux = K).

Lemma mult_buffered_mult M K U (a b cm aux : list T) :
  1 <= K -> valid c M K a -> valid c K U b -> valid c M U cm -> aux_ok K aux ->
  rres (fun r cm' => fst r = cm') (mult_buffered c N M K U a b cm aux) (mult c N M K U a b cm).
Proof.
  intros HK Ha Hb Hc [Hx Hdbg].
  pose proof (valid_bound _ _ _ _ Ha) as HBa. pose proof (valid_bound _ _ _ _ Hb) as HBb.
  pose proof (valid_bound _ _ _ _ Hc) as HBc. pose proof (valid_bound _ _ _ _ Hx) as HBx.
  unfold mult_buffered.
  assert (Hd : dassert c (length aux =? K) = Ok tt).
  { unfold dassert. destruct (no_assert c); [auto|]. destruct (debug_assertions c); [|auto].
    destruct Hdbg as [?|[?|Hl]]; try discriminate. rewrite Hl, Nat.eqb_refl. reflexivity. }
  rewrite Hd. cbn [bind]. unfold mult.
  eapply rres_mono with (R1 := fun (r : list T * list T) (s : list T) => fst r = s /\ valid c K 1 (snd r)); [|intros ? ? [? _]; auto].
  apply rres_for_down; [split; [auto|exact Hx]|].
  intros j [s1 aux1] s Hj [Heq Hv]. cbn [fst snd] in Heq, Hv. subst s1.
  pose proof (valid_bound _ _ _ _ Hv) as HBv.
  pose proof (get_column_copy_cellwise c K U b j aux1 HK Hj Hb Hv) as Hcol.
  destruct (get_column_copy c K U b j aux1) as [aux2|e]; cbn [cellwise] in Hcol.
  2:{ exfalso. destruct Hcol as (_ & i & j' & v & Hi & Hj' & _ & Hn).
      destruct (cell_some c K U b i j Hb Hi Hj) as (w & Hw & _). congruence. }
  destruct Hcol as (Hl2 & Hc2 & _). cbn [bind].
  assert (Hv2 : valid c K 1 aux2).
  { destruct Hv as [Hv1 Hv2]. split; [lia|]. unfold slice_ok in *. rewrite Hl2. exact Hv2. }
  assert (Haux : forall k, k < K -> rd aux2 k = rd b (k * U + j)).
  { intros k Hk. destruct (cell_some c K 1 aux1 k 0 Hv Hk ltac:(lia)) as (w & Hw & _).
    specialize (Hc2 k 0 w Hk ltac:(lia) Hw). unfold cell in Hc2.
    replace (k * 1 + 0) with k in Hc2 by lia. unfold rd. rewrite Hc2. reflexivity. }
  eapply rres_bind with (Rel := eq).
  2:{ intros [ia s1] ? <- _ _. cbn. auto. }
  apply rres_for_range; [reflexivity|]. intros i [ia s1] ? Hi <-.
  eapply rres_bind with (Rel := eq).
  - apply rres_for_range; [reflexivity|]. intros k [ia' t] ? Hk <-.
    apply rres_eq. apply bind_ext; intros av _.
    destruct (valid_cell c K U b k j Hb ltac:(lia) Hj).
    rewrite idx_ok by lia. rewrite Haux by lia. reflexivity.
  - intros [ia' t] ? <- _ _. apply rres_eq. reflexivity.
Qed.

Lemma set_symmetric_spec n (m : list T) i j v : valid c n n m -> i < n -> j < n ->
  exists m', set_symmetric c n m i j v = Ok m'
    /\ length m' = length m
    /\ cell n m' i j = Some v /\ cell n m' j i = Some v
    /\ (forall i' j', i' < n -> j' < n -> (i', j') <> (i, j) -> (i', j') <> (j, i) -> cell n m' i' j' = cell n m i' j')
    /\ (forall p, n * n <= p -> nth_error m' p = nth_error m p).
Proof.
  intros Hm Hi Hj. pose proof (valid_bound _ _ _ _ Hm) as HB.
  unfold set_symmetric. rewrite (set_at_cell c n) by auto. cbn [bind].
  assert (Hm' : valid c n n (upd m (i * n + j) v)).
  { destruct Hm as [H1 H2]. split; [rewrite length_upd; lia|]. unfold slice_ok in *. rewrite length_upd. auto. }
  rewrite (set_at_cell c n) by auto.
  eexists; split; [reflexivity|].
  pose proof (idx_lt i j n n Hi Hj) as L1. pose proof (idx_lt j i n n Hj Hi) as L2.
  split; [rewrite !length_upd; auto|]. unfold cell.
  split; [|split; [|split]].
  - rewrite nth_error_upd. destruct (Nat.eqb_spec (i * n + j) (j * n + i)).
    + rewrite length_upd, (proj2 (Nat.ltb_lt _ _)) by lia. reflexivity.
    + apply nth_error_upd_same. lia.
  - apply nth_error_upd_same. rewrite length_upd. lia.
  - intros i' j' Hi' Hj' H1 H2. rewrite !nth_error_upd_other; auto.
    + intros Heq. apply idx_inj in Heq; auto. destruct Heq; subst; congruence.
    + intros Heq. apply idx_inj in Heq; auto. destruct Heq; subst; congruence.
  - intros p Hp. rewrite !nth_error_upd_other; auto; lia.
Qed.

(** [set_all] in terms of cells *)
Lemma set_all_cell R C (m : list T) v i j : R * C <= length m -> i < R -> j < C -> cell C (set_all m v) i j = Some v.
Proof. intros Hm Hi Hj. unfold cell, set_all. apply nth_error_repeat. pose proof (idx_lt i j R C Hi Hj). lia. Qed.
Lemma set_all_all (m : list T) v p : p < length m -> nth_error (set_all m v) p = Some v.
Proof. intros. apply nth_error_repeat. auto. Qed.
Lemma set_all_length (m : list T) v : length (set_all m v) = length m.
Proof. apply repeat_length. Qed.
End Buffered.
