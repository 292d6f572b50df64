(** * Generic theorems about the matrix kernels (any element type, any build) *)
From Verif Require Import Spec Matrix Wp.

Lemma slice_ok_umax {T} c (l : list T) : slice_ok c l -> 2 * length l <= usize_max c.
Proof. unfold slice_ok, imax, umaxZ. intros H.
  assert (2 * (Z.of_nat (usize_max c) / 2) <= Z.of_nat (usize_max c))%Z by (apply Z.mul_div_le; lia). lia. Qed.

Lemma valid_bound {T} c R C (l : list T) : valid c R C l ->
  R * C <= length l /\ 2 * length l <= usize_max c.
Proof. intros [H1 H2]; split; auto. apply slice_ok_umax; auto. Qed.

Lemma valid_cell {T} c R C (l : list T) i j : valid c R C l -> i < R -> j < C ->
  i * C + j < length l /\ 2 * (i * C + j) < usize_max c.
Proof. intros H Hi Hj. apply valid_bound in H. pose proof (idx_lt i j R C Hi Hj). lia. Qed.

Lemma cell_some {T} c R C (l : list T) i j : valid c R C l -> i < R -> j < C ->
  exists v, cell C l i j = Some v /\ rd l (i * C + j) = Ok v.
Proof. intros H Hi Hj. destruct (valid_cell c R C l i j H Hi Hj) as [H1 _].
  destruct (rd_some l _ H1) as (v & Hv & Hr). exists v; auto. Qed.

Lemma rd_cell {T} C (l : list T) i j v : cell C l i j = Some v -> rd l (i * C + j) = Ok v.
Proof. apply rd_ok. Qed.

(** ** fill loops: every cell assigned once from its own old value *)
Section Fill.
Context {T : Type}.
Implicit Types (old cur : list T) (f : nat -> T -> option T).

(** the 1-D assignment step *)
Definition fill_body (f : nat -> T -> option T) (p : nat) (cur : list T) : res (list T) :=
  v <- rd cur p ;; w <- of_opt (f p v) ;; wr cur p w.

(** [done p]: position p has been processed *)
Definition fill_inv (done : nat -> Prop) (f : nat -> T -> option T) (old cur : list T) : Prop :=
  length cur = length old /\
  (forall p v, done p -> nth_error old p = Some v -> nth_error cur p = f p v) /\
  (forall p, ~ done p -> nth_error cur p = nth_error old p).

Lemma fill_step done done' f old cur p (E : panic -> Prop) :
  p < length old -> ~ done p -> (forall q, done' q <-> (done q \/ q = p)) ->
  fill_inv done f old cur ->
  (forall v, nth_error old p = Some v -> f p v = None -> E NumPanic) ->
  wp (fill_body f p cur) (fill_inv done' f old) E.
Proof.
  intros Hp Hnd Hd' (Hlen & Hdone & Hrest) HE. unfold fill_body.
  destruct (rd_some old p Hp) as (v & Hv & Hrd).
  assert (Hvc : nth_error cur p = Some v) by (rewrite Hrest; auto).
  rewrite (rd_ok _ _ _ Hvc). cbn [bind].
  destruct (f p v) as [w|] eqn:Hf; cbn [of_opt bind wp].
  - rewrite wr_ok by lia. cbn [wp]. split; [rewrite length_upd; auto|]. split.
    + intros q v' Hq Hv'. rewrite nth_error_upd.
      destruct (Nat.eqb_spec q p) as [->|Hne].
      * rewrite (proj2 (Nat.ltb_lt p (length cur))) by lia. congruence.
      * apply Hdone; auto. apply Hd' in Hq as [?|?]; [auto|contradiction].
    + intros q Hq. assert (q <> p) by (intros ->; apply Hq, Hd'; auto).
      rewrite nth_error_upd_other by auto. apply Hrest. intros Hc; apply Hq, Hd'; auto.
  - eapply HE; eauto.
Qed.

Lemma fill_inv_start f old : fill_inv (fun _ => False) f old old.
Proof. split; [auto|split; [intros ? ? []|auto]]. Qed.

Lemma fill_inv_ext d d' f old cur : (forall p, d p <-> d' p) -> fill_inv d f old cur -> fill_inv d' f old cur.
Proof. intros Hdd (H1 & H2 & H3). split; [auto|split].
  - intros p v Hp; apply H2, Hdd; auto.
  - intros p Hp; apply H3. intros Hc; apply Hp, Hdd; auto. Qed.

Lemma fill_inv_ext_lt d d' f old cur : (forall p, p < length old -> (d p <-> d' p)) -> fill_inv d f old cur -> fill_inv d' f old cur.
Proof. intros Hdd (H1 & H2 & H3). split; [auto|split].
  - intros p v Hp Hv; apply H2; auto. apply Hdd; auto. eapply nth_error_lt; eauto.
  - intros p Hp. destruct (Nat.lt_ge_cases p (length old)).
    + apply H3. intros Hc; apply Hp, Hdd; auto.
    + rewrite (proj2 (nth_error_None cur p)), (proj2 (nth_error_None old p)); auto; lia. Qed.

End Fill.

(** from the fill invariant to the specification *)
Lemma fill_cellwise {T} R C (old : list T) f g r :
  R * C <= length old ->
  (forall i j v, i < R -> j < C -> g (i * C + j) v = f i j v) ->
  wp r (fill_inv (fun p => p < R * C) g old)
     (fun e => e = NumPanic /\ exists p v, p < R * C /\ nth_error old p = Some v /\ g p v = None) ->
  cellwise R C old f r.
Proof.
  intros Hlen Hfg. destruct r as [new|e]; cbn [wp cellwise].
  - intros (H1 & H2 & H3). split; [auto|split].
    + intros i j v Hi Hj Hv. unfold cell. rewrite <- Hfg by auto. apply H2; auto. apply idx_lt; auto.
    + intros p Hp; apply H3; lia.
  - intros (-> & p & v & Hp & Hv & Hg). split; [auto|].
    destruct (idx_split_lt p R C Hp) as (i & j & -> & Hi & Hj).
    exists i, j, v. repeat split; auto. rewrite <- Hfg; auto.
Qed.

(** 1-D loops *)
Lemma fill_down {T} (f : nat -> T -> option T) (old : list T) cnt :
  cnt <= length old ->
  wp (for_down cnt old (fill_body f)) (fill_inv (fun p => p < cnt) f old)
     (fun e => e = NumPanic /\ exists p v, p < cnt /\ nth_error old p = Some v /\ f p v = None).
Proof.
  intros Hlen.
  eapply wp_mono; [apply (wp_for_down cnt old (fill_body f) (fun k => fill_inv (fun p => k <= p < cnt) f old)
     (fun e => e = NumPanic /\ exists p v, p < cnt /\ nth_error old p = Some v /\ f p v = None))| |auto].
  - eapply fill_inv_ext; [|apply fill_inv_start]. cbn; lia.
  - intros i s Hi Hinv. eapply fill_step; [| | |exact Hinv|]; [lia|cbn; lia|cbn; lia|].
    intros v Hv Hf; split; [reflexivity|do 2 eexists; repeat split; eauto; lia].
  - intros a; apply fill_inv_ext; cbn; lia.
Qed.

Lemma fill_up {T} (f : nat -> T -> option T) (old : list T) cnt :
  cnt <= length old ->
  wp (for_range 0 cnt old (fill_body f)) (fill_inv (fun p => p < cnt) f old)
     (fun e => e = NumPanic /\ exists p v, p < cnt /\ nth_error old p = Some v /\ f p v = None).
Proof.
  intros Hlen.
  eapply wp_mono; [apply (wp_for_range 0 cnt old (fill_body f) (fun k => fill_inv (fun p => p < k) f old)
     (fun e => e = NumPanic /\ exists p v, p < cnt /\ nth_error old p = Some v /\ f p v = None))| |auto].
  - lia.
  - eapply fill_inv_ext; [|apply fill_inv_start]. cbn; lia.
  - intros i s Hi Hinv. eapply fill_step; [| | |exact Hinv|]; [lia|cbn; lia|cbn; lia|].
    intros v Hv Hf; split; [reflexivity|do 2 eexists; repeat split; eauto; lia].
  - intros a; apply fill_inv_ext; cbn; lia.
Qed.

(** rows outside, columns inside, both upwards *)
Lemma fill_rows {T} (f : nat -> T -> option T) (old : list T) R C :
  R * C <= length old ->
  wp (for_range 0 R old (fun i s => for_range 0 C s (fun j s => fill_body f (i * C + j) s)))
     (fill_inv (fun p => p < R * C) f old)
     (fun e => e = NumPanic /\ exists p v, p < R * C /\ nth_error old p = Some v /\ f p v = None).
Proof.
  intros Hlen.
  apply (wp_for_range 0 R old _ (fun k => fill_inv (fun p => p < k * C) f old)).
  - lia.
  - eapply fill_inv_ext; [|apply fill_inv_start]. cbn; lia.
  - intros i s Hi Hinv.
    eapply wp_mono; [apply (wp_for_range 0 C s _ (fun k => fill_inv (fun p => p < i * C + k) f old)
      (fun e => e = NumPanic /\ exists p v, p < R * C /\ nth_error old p = Some v /\ f p v = None))| |auto].
    + lia.
    + eapply fill_inv_ext; [|exact Hinv]. cbn; lia.
    + intros j s' Hj Hinv'.
      assert (i * C + j < R * C) by (apply idx_lt; lia).
      eapply fill_step; [| | |exact Hinv'|]; [lia|cbn; lia|cbn; lia|].
      intros v Hv Hf; split; [reflexivity|do 2 eexists; repeat split; eauto; lia].
    + intros a; apply fill_inv_ext; cbn; lia.
Qed.

(** columns outside (downwards), rows inside (upwards) *)
Lemma fill_cols_down {T} (f : nat -> T -> option T) (old : list T) R C :
  R * C <= length old ->
  wp (for_down C old (fun j s => for_range 0 R s (fun i s => fill_body f (i * C + j) s)))
     (fill_inv (fun p => p < R * C) f old)
     (fun e => e = NumPanic /\ exists p v, p < R * C /\ nth_error old p = Some v /\ f p v = None).
Proof.
  intros Hlen.
  set (E := fun e => e = NumPanic /\ exists p v, p < R * C /\ nth_error old p = Some v /\ f p v = None).
  eapply wp_mono; [apply (wp_for_down C old _
     (fun k => fill_inv (fun p => exists i j, p = i * C + j /\ i < R /\ k <= j < C) f old) E)| |auto].
  - eapply fill_inv_ext; [|apply fill_inv_start]. intros p; split; [intros []|intros (i & j & _ & _ & ?); lia].
  - intros j s Hj Hinv.
    eapply wp_mono; [apply (wp_for_range 0 R s _
      (fun k => fill_inv (fun p => exists i' j', p = i' * C + j' /\ i' < R /\ j' < C /\ (S j <= j' \/ (j' = j /\ i' < k))) f old) E)| |auto].
    + lia.
    + eapply fill_inv_ext; [|exact Hinv]. intros p; split.
      * intros (i & j' & -> & ? & ?). exists i, j'; repeat split; auto; lia.
      * intros (i & j' & -> & ? & ? & [?|[? ?]]); [exists i, j'; repeat split; auto; lia|lia].
    + intros i s' Hi Hinv'.
      assert (i * C + j < R * C) by (apply idx_lt; lia).
      eapply fill_step; [| | |exact Hinv'|].
      * lia.
      * intros (i' & j' & Heq & ? & ? & Hor). apply idx_inj in Heq; [|lia|lia]. lia.
      * intros q; split.
        -- intros (i' & j' & -> & ? & ? & Hor).
           destruct (Nat.eq_dec j' j) as [->|]; [destruct (Nat.eq_dec i' i) as [->|]|].
           ++ right; auto.
           ++ left. exists i', j; repeat split; auto; lia.
           ++ left. exists i', j'; repeat split; auto; lia.
        -- intros [(i' & j' & -> & ? & ? & Hor)| ->].
           ++ exists i', j'; repeat split; auto; lia.
           ++ exists i, j; repeat split; auto; lia.
      * intros v Hv Hf; split; [reflexivity|do 2 eexists; repeat split; eauto; lia].
    + intros a; apply fill_inv_ext. intros p; split.
      * intros (i' & j' & -> & ? & ? & Hor). exists i', j'; repeat split; auto; lia.
      * intros (i' & j' & -> & ? & ?). exists i', j'; repeat split; auto; lia.
  - intros a; apply fill_inv_ext. intros p; split.
    + intros (i & j & -> & ? & ?). apply idx_lt; lia.
    + intros Hp. destruct (idx_split_lt p R C Hp) as (i & j & -> & ? & ?). exists i, j; repeat split; auto; lia.
Qed.

(** ** dot products *)
Section Dot.
Context {T : Type} (N : num T).

Lemma of_opt_obind {A} (o : option A) (k : A -> option T) :
  of_opt (obind o k) = bind (of_opt o) (fun a => of_opt (k a)).
Proof. destruct o; reflexivity. Qed.

Lemma dot_loop K (f g : nat -> option T) :
  of_opt (dot N K f g) =
  for_range 0 K (n_zero N) (fun k acc =>
    u <- of_opt (f k) ;; v <- of_opt (g k) ;; p <- n_mul N u v ;; n_add N acc p).
Proof.
  induction K as [|K IH].
  - reflexivity.
  - rewrite for_range_snoc by lia. rewrite <- IH. cbn [dot].
    rewrite of_opt_obind. apply bind_ext; intros acc _.
    rewrite !of_opt_obind. apply bind_ext; intros u _.
    rewrite !of_opt_obind. apply bind_ext; intros v _.
    rewrite !of_opt_obind. reflexivity.
Qed.

Lemma dot1_S k f g : dot1 N (S (S k)) f g = obind (dot1 N (S k) f g) (fun acc =>
           obind (f (S k)) (fun u => obind (g (S k)) (fun v =>
           obind (o_mul N u v) (fun p => o_add N acc p)))).
Proof. reflexivity. Qed.

Lemma dot1_loop K (f g : nat -> option T) :
  of_opt (dot1 N (S K) f g) =
  bind (u <- of_opt (f 0) ;; v <- of_opt (g 0) ;; n_mul N u v) (fun t =>
  for_range 1 (S K) t (fun k acc =>
    u <- of_opt (f k) ;; v <- of_opt (g k) ;; p <- n_mul N u v ;; n_add N acc p)).
Proof.
  induction K as [|K IH].
  - cbn [dot1]. rewrite !of_opt_obind, bind_assoc. apply bind_ext; intros u _.
    rewrite !of_opt_obind, bind_assoc. apply bind_ext; intros v _.
    symmetry; apply bind_ret.
  - rewrite dot1_S, of_opt_obind, IH.
    rewrite bind_assoc. apply bind_ext; intros t _. rewrite (for_range_snoc 1 (S K)) by lia.
    apply bind_ext; intros acc _.
    rewrite !of_opt_obind. apply bind_ext; intros u _.
    rewrite !of_opt_obind. apply bind_ext; intros v _.
    rewrite !of_opt_obind. reflexivity.
Qed.

Lemma rd_of_opt (l : list T) i : i < length l -> rd l i = of_opt (nth_error l i).
Proof. intros H. destruct (rd_some l i H) as (v & -> & ->). reflexivity. Qed.

Lemma of_opt_some (o : option T) v : of_opt o = Ok v -> o = Some v.
Proof. destruct o; cbn; congruence. Qed.

End Dot.

(** ** the product kernels *)
Section Products.
Context {T : Type} (c : cfg) (N : num T).

Theorem mult_cellwise M K U (a b cm : list T) :
  valid c M K a -> valid c K U b -> valid c M U cm ->
  cellwise M U cm (fun i j _ => dot N K (fun k => cell K a i k) (fun k => cell U b k j))
    (mult c N M K U a b cm).
Proof.
  intros Ha Hb Hc.
  pose (g := fun p (_ : T) => dot N K (fun k => cell K a (p / U) k) (fun k => cell U b k (p mod U))).
  assert (Hg : forall i j v, i < M -> j < U -> g (i * U + j) v = dot N K (fun k => cell K a i k) (fun k => cell U b k j)).
  { intros i j v Hi Hj. unfold g. f_equal.
    - rewrite Nat.div_add_l, Nat.div_small by lia. rewrite Nat.add_0_r. reflexivity.
    - rewrite Nat.add_comm, Nat.mod_add, Nat.mod_small by lia. reflexivity. }
  eapply fill_cellwise with (g := g); [apply Hc|exact Hg|].
  pose proof (fill_cols_down g cm M U (proj1 Hc)) as HF.
  match type of HF with wp ?m _ _ => replace (mult c N M K U a b cm) with m; [exact HF|] end.
  symmetry. unfold mult.
  apply for_down_ext with (P := fun _ s => length s = length cm); [reflexivity|].
  intros j s Hj Hs.
  assert (Hbody : forall i s, i < M -> length s = length cm ->
    wp (fill_body g (i * U + j) s) (fun s' => length s' = length cm) (fun _ => True)).
  { intros i s' Hi Hs'. destruct (valid_cell c M U cm i j Hc Hi Hj) as [Hlt _].
    unfold fill_body. destruct (rd_some s' (i * U + j)) as (v & _ & ->); [lia|]. cbn [bind].
    destruct (g _ v); cbn; [|trivial]. rewrite wr_ok by lia. cbn. rewrite length_upd; auto. }
  split.
  - rewrite (for_range_sim (fun i s => (i * K, s)) 0 M s _ (fun i s => fill_body g (i * U + j) s) (fun _ s => length s = length cm)).
    + rewrite bind_assoc. cbn [bind]. apply bind_ret.
    + lia.
    + exact Hs.
    + intros i s' Hi Hs'. split; [|apply Hbody; auto; lia].
      unfold fill_body.
      destruct (valid_cell c M U cm i j Hc ltac:(lia) Hj) as [Hlt Hlt2].
      destruct (rd_some s' (i * U + j)) as (v & Hv & ->); [lia|]. cbn [bind].
      rewrite Hg by lia. rewrite dot_loop.
      erewrite (for_range_sim (fun k t => (k + i * K, t)) 0 K (n_zero N) _
        (fun k acc => u <- of_opt (cell K a i k) ;; v <- of_opt (cell U b k j) ;; p <- n_mul N u v ;; n_add N acc p)
        (fun _ _ => True)); [|lia|trivial|].
      2:{ intros k t Hk _. split; [|destruct (bind _ _); exact I].
          destruct (valid_cell c M K a i k Ha ltac:(lia) ltac:(lia)) as [Hla Hla2].
          destruct (valid_cell c K U b k j Hb ltac:(lia) ltac:(lia)) as [Hlb Hlb2].
          rewrite (Nat.add_comm k (i * K)), (rd_of_opt a) by lia. fold (cell K a i k).
          rewrite bind_assoc. apply bind_ext; intros u _.
          rewrite idx_ok by lia.
          rewrite (rd_of_opt b) by lia. fold (cell U b k j).
          rewrite ?bind_assoc. apply bind_ext; intros w _.
          rewrite ?bind_assoc. apply bind_ext; intros p _.
          apply bind_ext; intros t' _.
          rewrite uadd_ok by lia. cbn [bind]. f_equal; f_equal; lia. }
      rewrite ?bind_assoc. apply bind_ext; intros t _. cbn [bind].
      rewrite idx_ok by lia. rewrite wr_ok by lia. cbn [bind]. f_equal; f_equal; lia.
  - apply wp_for_range with (Inv := fun _ s => length s = length cm); [lia|exact Hs|].
    intros i s' Hi Hs'; apply Hbody; auto; lia.
Qed.

(** from a row/column function to a function of the flat position *)
Definition flat (C : nat) (f : nat -> nat -> T -> option T) (p : nat) (v : T) : option T := f (p / C) (p mod C) v.
Lemma flat_cell C f i j v : j < C -> flat C f (i * C + j) v = f i j v.
Proof. intros Hj. unfold flat. rewrite Nat.div_add_l, Nat.div_small by lia.
  rewrite Nat.add_0_r, Nat.add_comm, Nat.mod_add, Nat.mod_small by lia. reflexivity. Qed.

Lemma fill_body_len (g : nat -> T -> option T) p (s cm : list T) : p < length cm -> length s = length cm ->
  wp (fill_body g p s) (fun s' => length s' = length cm) (fun _ => True).
Proof. intros Hp Hs. unfold fill_body. destruct (rd_some s p) as (v & _ & ->); [lia|]. cbn [bind].
  destruct (g _ v); cbn; [|trivial]. rewrite wr_ok by lia. cbn. rewrite length_upd; auto. Qed.

Theorem gen_mult_rowvector_cellwise (st : T -> T -> option T) store M K (a x cm : list T) :
  (forall o t, store o t = of_opt (st o t)) -> 1 <= K ->
  valid c M K a -> valid c K 1 x -> valid c M 1 cm ->
  cellwise M 1 cm (fun i _ old => obind (dot1 N K (fun k => cell K a i k) (fun k => cell 1 x k 0)) (fun t => st old t))
    (gen_mult_rowvector c N store M K a x cm).
Proof.
  intros Hst HK Ha Hx Hc.
  set (f := fun i (_ : nat) old => obind (dot1 N K (fun k => cell K a i k) (fun k => cell 1 x k 0)) (fun t => st old t)).
  eapply fill_cellwise with (g := flat 1 f); [apply Hc|intros; apply flat_cell; auto|].
  pose proof (fill_up (flat 1 f) cm (M * 1) (proj1 Hc)) as HF.
  match type of HF with wp ?m _ _ => replace (gen_mult_rowvector c N store M K a x cm) with m; [exact HF|] end.
  symmetry. unfold gen_mult_rowvector.
  rewrite Nat.mul_1_r in *.
  destruct (valid_cell c K 1 x 0 0 Hx ltac:(lia) ltac:(lia)) as [Hx0 _].
  destruct (rd_some x 0) as (b0 & Hb0 & ->); [lia|]. cbn [bind].
  erewrite (for_range_sim (fun i s => (i * K, s)) 0 M cm _ (fill_body (flat 1 f)) (fun _ s => length s = length cm)); [|lia|reflexivity|].
  - rewrite bind_assoc. cbn [bind]. apply bind_ret.
  - intros i s Hi Hs.
    destruct (valid_cell c M 1 cm i 0 Hc ltac:(lia) ltac:(lia)) as [Hlt Hlt2].
    split; [|apply fill_body_len; lia].
    unfold fill_body. destruct (rd_some s i) as (v & Hv & Hrv); [lia|]. rewrite Hrv. cbn [bind].
    replace (flat 1 f i v) with (f i 0 v) by (rewrite <- (flat_cell 1 f i 0 v) by lia; f_equal; lia).
    unfold f. rewrite of_opt_obind. destruct K as [|K']; [lia|]. rewrite dot1_loop.
    destruct (valid_cell c M (S K') a i 0 Ha ltac:(lia) ltac:(lia)) as [Ha0 Ha02].
    replace (i * S K') with (i * S K' + 0) at 1 by lia.
    rewrite (rd_of_opt a) by lia. fold (cell (S K') a i 0).
    rewrite ?bind_assoc. apply bind_ext; intros u _.
    change (cell 1 x 0 0) with (nth_error x 0). rewrite Hb0. cbn [of_opt bind].
    rewrite ?bind_assoc. apply bind_ext; intros t0 _.
    rewrite uadd_ok by lia. cbn [bind].
    replace (i * S K' + 1) with (1 + i * S K') by lia.
    erewrite (for_range_sim (fun k t => (k + i * S K', t)) 1 (S K') t0 _
        (fun k acc => u <- of_opt (cell (S K') a i k) ;; v <- of_opt (cell 1 x k 0) ;; p <- n_mul N u v ;; n_add N acc p)
        (fun _ _ => True)); [|lia|trivial|].
    2:{ intros k t Hk _. split; [|destruct (bind _ _); exact I].
          destruct (valid_cell c M (S K') a i k Ha ltac:(lia) ltac:(lia)) as [Hla Hla2].
          destruct (valid_cell c (S K') 1 x k 0 Hx ltac:(lia) ltac:(lia)) as [Hlb Hlb2].
          rewrite (Nat.add_comm k (i * S K')), (rd_of_opt a) by lia. fold (cell (S K') a i k).
          rewrite bind_assoc. apply bind_ext; intros u' _.
          replace (rd x k) with (of_opt (cell 1 x k 0)) by (unfold cell; rewrite <- rd_of_opt by lia; f_equal; lia).
          rewrite ?bind_assoc. apply bind_ext; intros w _.
          rewrite ?bind_assoc. apply bind_ext; intros p _.
          apply bind_ext; intros t' _.
          rewrite uadd_ok by lia. cbn [bind]. f_equal; f_equal; lia. }
    rewrite ?bind_assoc. apply bind_ext; intros t _. cbn [bind].
    rewrite ?Hrv. cbn [bind]. rewrite Hst. rewrite ?bind_assoc. apply bind_ext; intros w _.
    rewrite wr_ok by lia. cbn [bind]. f_equal; f_equal; lia.
Qed.

Theorem mult_rowvector_cellwise M K (a x cm : list T) :
  1 <= K -> valid c M K a -> valid c K 1 x -> valid c M 1 cm ->
  cellwise M 1 cm (fun i _ _ => dot1 N K (fun k => cell K a i k) (fun k => cell 1 x k 0))
    (mult_rowvector c N M K a x cm).
Proof.
  intros HK Ha Hx Hc.
  pose proof (gen_mult_rowvector_cellwise (fun _ t => Some t) (fun _ total => Ok total) M K a x cm
    (fun _ _ => eq_refl) HK Ha Hx Hc) as H.
  fold (mult_rowvector c N M K a x cm) in H.
  destruct (mult_rowvector c N M K a x cm); cbn [cellwise] in *.
  - destruct H as (H1 & H2 & H3); split; [auto|split; [|auto]].
    intros i j v Hi Hj Hv. rewrite (H2 i j v Hi Hj Hv). destruct (dot1 _ _ _ _); reflexivity.
  - destruct H as (-> & i & j & v & ? & ? & ? & Hn). split; [auto|]. exists i, j, v; repeat split; auto.
    destruct (dot1 _ _ _ _); [discriminate|reflexivity].
Qed.

Theorem multadd_rowvector_cellwise M K (a x cm : list T) :
  1 <= K -> valid c M K a -> valid c K 1 x -> valid c M 1 cm ->
  cellwise M 1 cm (fun i _ old => obind (dot1 N K (fun k => cell K a i k) (fun k => cell 1 x k 0)) (fun t => o_add N old t))
    (multadd_rowvector c N M K a x cm).
Proof. intros; apply gen_mult_rowvector_cellwise with (st := o_add N); auto. Qed.

Theorem gen_mult_transb_cellwise (st : T -> T -> option T) store M K U (a b cm : list T) :
  (forall o t, store o t = of_opt (st o t)) ->
  valid c M K a -> valid c U K b -> valid c M U cm ->
  cellwise M U cm (fun i j old => obind (dot N K (fun k => cell K a i k) (fun k => cell K b j k)) (fun t => st old t))
    (gen_mult_transb c N store M K U a b cm).
Proof.
  intros Hst Ha Hb Hc.
  set (f := fun i j old => obind (dot N K (fun k => cell K a i k) (fun k => cell K b j k)) (fun t => st old t)).
  eapply fill_cellwise with (g := flat U f); [apply Hc|intros; apply flat_cell; auto|].
  pose proof (fill_rows (flat U f) cm M U (proj1 Hc)) as HF.
  match type of HF with wp ?m _ _ => replace (gen_mult_transb c N store M K U a b cm) with m; [exact HF|] end.
  symmetry. unfold gen_mult_transb.
  pose proof (valid_bound _ _ _ _ Ha) as HBa. pose proof (valid_bound _ _ _ _ Hb) as HBb.
  pose proof (valid_bound _ _ _ _ Hc) as HBc.
  erewrite (for_range_sim (fun i s => (i * U, i * K, s)) 0 M cm _
     (fun i s => for_range 0 U s (fun j s => fill_body (flat U f) (i * U + j) s)) (fun _ s => length s = length cm)); [|lia|reflexivity|].
  - rewrite bind_assoc. cbn [bind]. apply bind_ret.
  - intros i s Hi Hs. split.
    2:{ apply wp_for_range with (Inv := fun _ s => length s = length cm); [lia|exact Hs|].
        intros j s' Hj Hs'. destruct (valid_cell c M U cm i j Hc ltac:(lia) ltac:(lia)). apply fill_body_len; lia. }
    assert (HiK : i * K + K <= M * K) by nia.
    rewrite uadd_ok by lia. cbn [bind].
    replace (i * U) with (0 + i * U) at 1 by lia.
    change (0 + i * U, 0, s) with ((fun j s => (j + i * U, j * K, s)) 0 s).
    erewrite (for_range_sim (fun j s => (j + i * U, j * K, s)) 0 U s _ (fun j s => fill_body (flat U f) (i * U + j) s) (fun _ s => length s = length cm)); [|lia|exact Hs|].
    + rewrite bind_assoc. apply bind_ext; intros s' _. cbn [bind].
      f_equal; f_equal. f_equal; lia.
    + intros j s' Hj Hs'.
      destruct (valid_cell c M U cm i j Hc ltac:(lia) ltac:(lia)) as [Hlt Hlt2].
      split; [|apply fill_body_len; lia].
      unfold fill_body. destruct (rd_some s' (i * U + j)) as (v & Hv & Hrv); [lia|]. rewrite Hrv. cbn [bind].
      rewrite flat_cell by lia. unfold f. rewrite of_opt_obind, dot_loop.
      replace (i * K) with (0 + i * K) at 2 by lia. replace (j * K) with (0 + j * K) at 2 by lia.
      change (0 + i * K, 0 + j * K, n_zero N) with ((fun k (t : T) => (k + i * K, k + j * K, t)) 0 (n_zero N)).
      erewrite (while_for (fun k t => (k + i * K, k + j * K, t)) 0 K (S K) (n_zero N) _ _
         (fun k acc => u <- of_opt (cell K a i k) ;; v <- of_opt (cell K b j k) ;; p <- n_mul N u v ;; n_add N acc p)); [|lia|lia| |].
      * rewrite ?bind_assoc. apply bind_ext; intros t _. cbn [bind].
        rewrite (Nat.add_comm j (i * U)), Hrv. cbn [bind]. rewrite Hst, ?bind_assoc. apply bind_ext; intros w _.
        rewrite wr_ok by lia. cbn [bind]. rewrite uadd_ok by lia. cbn [bind]. f_equal; f_equal; f_equal; lia.
      * intros t. apply Nat.ltb_ge. lia.
      * intros k t Hk. split; [apply Nat.ltb_lt; lia|].
        destruct (valid_cell c M K a i k Ha ltac:(lia) ltac:(lia)) as [Hla Hla2].
        destruct (valid_cell c U K b j k Hb ltac:(lia) ltac:(lia)) as [Hlb Hlb2].
        rewrite (Nat.add_comm k (i * K)), (rd_of_opt a) by lia. fold (cell K a i k).
        rewrite ?bind_assoc. apply bind_ext; intros u' _.
        rewrite (Nat.add_comm k (j * K)), (rd_of_opt b) by lia. fold (cell K b j k).
        rewrite ?bind_assoc. apply bind_ext; intros w _.
        rewrite ?bind_assoc. apply bind_ext; intros p _.
        apply bind_ext; intros t' _.
        rewrite uadd_ok by lia. cbn [bind]. rewrite uadd_ok by lia. cbn [bind]. f_equal; f_equal; f_equal; lia.
Qed.

Lemma cellwise_ext R C (old : list T) f f' r :
  (forall i j v, i < R -> j < C -> f i j v = f' i j v) -> cellwise R C old f r -> cellwise R C old f' r.
Proof.
  intros Hf. destruct r; cbn [cellwise].
  - intros (H1 & H2 & H3); split; [auto|split; [|auto]]. intros i j v Hi Hj Hv. rewrite <- Hf by auto. auto.
  - intros (-> & i & j & v & ? & ? & ? & ?). split; [auto|]. exists i, j, v; repeat split; auto. rewrite <- Hf; auto.
Qed.

Theorem mult_transb_cellwise M K U (a b cm : list T) :
  valid c M K a -> valid c U K b -> valid c M U cm ->
  cellwise M U cm (fun i j _ => dot N K (fun k => cell K a i k) (fun k => cell K b j k))
    (mult_transb c N M K U a b cm).
Proof.
  intros Ha Hb Hc.
  eapply cellwise_ext; [|apply (gen_mult_transb_cellwise (fun _ t => Some t) (fun _ total => Ok total) M K U a b cm); auto].
  intros; cbn. destruct (dot _ _ _ _); reflexivity.
Qed.

Theorem multadd_transb_cellwise M K U (a b cm : list T) :
  valid c M K a -> valid c U K b -> valid c M U cm ->
  cellwise M U cm (fun i j old => obind (dot N K (fun k => cell K a i k) (fun k => cell K b j k)) (fun t => o_add N old t))
    (multadd_transb c N M K U a b cm).
Proof. intros; apply gen_mult_transb_cellwise with (st := o_add N); auto. Qed.

Theorem multscale_transb_cellwise scale M K U (a b cm : list T) :
  valid c M K a -> valid c U K b -> valid c M U cm ->
  cellwise M U cm (fun i j _ => obind (dot N K (fun k => cell K a i k) (fun k => cell K b j k)) (fun t => o_mul N t scale))
    (multscale_transb c N scale M K U a b cm).
Proof. intros; apply gen_mult_transb_cellwise with (st := fun _ t => o_mul N t scale); auto. Qed.

End Products.

(** ** element-wise kernels *)
Section Elementwise.
Context {T : Type} (c : cfg) (N : num T).

Lemma fill_down_cellwise R C (old : list T) f body g :
  valid c R C old ->
  (forall i j v, i < R -> j < C -> g (i * C + j) v = f i j v) ->
  (forall p s, p < R * C -> length s = length old -> body p s = fill_body g p s) ->
  cellwise R C old f (for_down (R * C) old body).
Proof.
  intros Hv Hg Hbody. pose proof (valid_bound _ _ _ _ Hv) as HB.
  eapply fill_cellwise with (g := g); [lia|exact Hg|].
  rewrite (for_down_ext (R * C) old body (fill_body g) (fun _ s => length s = length old)).
  - apply fill_down; lia.
  - reflexivity.
  - intros p s Hp Hs. split; [apply Hbody; auto|]. apply fill_body_len; lia.
Qed.

Ltac elementwise :=
  lazymatch goal with
  | |- cellwise ?R ?C _ _ (bind (m_len ?cc ?R ?C) _) => unfold m_len; rewrite umul_ok by lia; cbn [bind]
  end.

Theorem m_sub_cellwise R C (a b cm : list T) :
  valid c R C a -> valid c R C b -> valid c R C cm ->
  cellwise R C cm (fun i j _ => obind (cell C a i j) (fun u => obind (cell C b i j) (fun v => o_sub N u v)))
    (m_sub c N R C a b cm).
Proof.
  intros Ha Hb Hc. pose proof (valid_bound _ _ _ _ Ha). pose proof (valid_bound _ _ _ _ Hb). pose proof (valid_bound _ _ _ _ Hc).
  unfold m_sub. elementwise.
  eapply fill_down_cellwise with (g := fun p _ => obind (nth_error a p) (fun u => obind (nth_error b p) (fun v => o_sub N u v))); [auto|reflexivity|].
  intros p s Hp Hs. unfold fill_body.
  destruct (rd_some s p) as (v & _ & ->); [lia|]. cbn [bind].
  destruct (rd_some a p) as (u & -> & ->); [lia|]. cbn [bind obind].
  destruct (rd_some b p) as (w & -> & ->); [lia|]. cbn [bind obind]. reflexivity.
Qed.

Theorem add_inplace_b_cellwise R C (a b : list T) :
  valid c R C a -> valid c R C b ->
  cellwise R C b (fun i j old => obind (cell C a i j) (fun u => o_add N old u))
    (add_inplace_b c N R C a b).
Proof.
  intros Ha Hb. pose proof (valid_bound _ _ _ _ Ha). pose proof (valid_bound _ _ _ _ Hb).
  unfold add_inplace_b. elementwise.
  eapply fill_down_cellwise with (g := fun p old => obind (nth_error a p) (fun u => o_add N old u)); [auto|reflexivity|].
  intros p s Hp Hs. unfold fill_body.
  destruct (rd_some s p) as (v & _ & ->); [lia|]. cbn [bind].
  destruct (rd_some a p) as (u & -> & ->); [lia|]. cbn [bind obind]. reflexivity.
Qed.

Theorem sub_inplace_b_cellwise R C (a b : list T) :
  valid c R C a -> valid c R C b ->
  cellwise R C b (fun i j old => obind (cell C a i j) (fun u => o_sub N u old))
    (sub_inplace_b c N R C a b).
Proof.
  intros Ha Hb. pose proof (valid_bound _ _ _ _ Ha). pose proof (valid_bound _ _ _ _ Hb).
  unfold sub_inplace_b. elementwise.
  eapply fill_down_cellwise with (g := fun p old => obind (nth_error a p) (fun u => o_sub N u old)); [auto|reflexivity|].
  intros p s Hp Hs. unfold fill_body.
  destruct (rd_some s p) as (v & _ & ->); [lia|]. cbn [bind].
  destruct (rd_some a p) as (u & -> & ->); [lia|]. cbn [bind obind]. reflexivity.
Qed.

Theorem add_inplace_a_cellwise R C (a b : list T) :
  valid c R C a -> valid c R C b ->
  cellwise R C a (fun i j old => obind (cell C b i j) (fun u => o_add N old u))
    (add_inplace_a c N R C a b).
Proof.
  intros Ha Hb. pose proof (valid_bound _ _ _ _ Ha). pose proof (valid_bound _ _ _ _ Hb).
  unfold add_inplace_a. elementwise.
  eapply fill_down_cellwise with (g := fun p old => obind (nth_error b p) (fun u => o_add N old u)); [auto|reflexivity|].
  intros p s Hp Hs. unfold fill_body.
  destruct (rd_some s p) as (v & _ & ->); [lia|].
  destruct (rd_some b p) as (u & -> & ->); [lia|]. cbn [bind obind]. reflexivity.
Qed.

Theorem sub_inplace_a_cellwise R C (a b : list T) :
  valid c R C a -> valid c R C b ->
  cellwise R C a (fun i j old => obind (cell C b i j) (fun u => o_sub N old u))
    (sub_inplace_a c N R C a b).
Proof.
  intros Ha Hb. pose proof (valid_bound _ _ _ _ Ha). pose proof (valid_bound _ _ _ _ Hb).
  unfold sub_inplace_a. elementwise.
  eapply fill_down_cellwise with (g := fun p old => obind (nth_error b p) (fun u => o_sub N old u)); [auto|reflexivity|].
  intros p s Hp Hs. unfold fill_body.
  destruct (rd_some s p) as (v & _ & ->); [lia|].
  destruct (rd_some b p) as (u & -> & ->); [lia|]. cbn [bind obind]. reflexivity.
Qed.

Theorem copy_to_cellwise R C (a b : list T) :
  1 <= R -> 1 <= C -> valid c R C a -> valid c R C b ->
  cellwise R C b (fun i j _ => cell C a i j) (copy_to c R C a b).
Proof.
  intros HR HC Ha Hb. pose proof (valid_bound _ _ _ _ Ha). pose proof (valid_bound _ _ _ _ Hb).
  assert (1 <= R * C) by nia.
  unfold copy_to. elementwise. rewrite usub_ok by lia. cbn [bind].
  replace (S (R * C - 1)) with (R * C) by lia.
  eapply fill_down_cellwise with (g := fun p _ => nth_error a p); [auto|reflexivity|].
  intros p s Hp Hs. unfold fill_body.
  destruct (rd_some s p) as (v & _ & ->); [lia|].
  destruct (rd_some a p) as (u & -> & ->); [lia|]. cbn [bind obind]. reflexivity.
Qed.

(** when the cell values always exist, the call succeeds *)
Lemma cellwise_total R C (old : list T) f r :
  (forall i j v, i < R -> j < C -> f i j v <> None) -> cellwise R C old f r ->
  exists new, r = Ok new /\ length new = length old /\
     (forall i j v, i < R -> j < C -> cell C old i j = Some v -> cell C new i j = f i j v) /\
     (forall p, R * C <= p -> nth_error new p = nth_error old p).
Proof.
  intros Hf. destruct r as [new|e]; cbn [cellwise].
  - intros (H1 & H2 & H3). exists new; auto.
  - intros (_ & i & j & v & Hi & Hj & _ & Hn). exfalso; eapply Hf; eauto.
Qed.

Theorem make_comatrix_cellwise n d o (m : list T) :
  valid c n n m ->
  cellwise n n m (fun i j _ => Some (if i =? j then d else o)) (make_comatrix c n d o m).
Proof.
  intros Hm. pose proof (valid_bound _ _ _ _ Hm) as HB.
  set (f := fun i j (_ : T) => Some (if i =? j then d else o)).
  eapply fill_cellwise with (g := flat n f); [apply Hm|intros; apply flat_cell; auto|].
  unfold make_comatrix.
  rewrite (for_range_ext 0 n m _ (fun i s => for_range 0 n s (fun j s => fill_body (flat n f) (i * n + j) s)) (fun _ s => length s = length m)).
  - apply fill_rows; apply Hm.
  - lia.
  - reflexivity.
  - intros i s Hi Hs.
    assert (Hw : forall j s, j < n -> length s = length m -> wp (fill_body (flat n f) (i * n + j) s) (fun s' => length s' = length m) (fun _ => True)).
    { intros j s' Hj Hs'. destruct (valid_cell c n n m i j Hm ltac:(lia) ltac:(lia)). apply fill_body_len; lia. }
    split.
    + apply for_range_ext with (P := fun _ s => length s = length m); [lia|auto|].
      intros j s' Hj Hs'. split; [|apply Hw; auto; lia].
      destruct (valid_cell c n n m i j Hm ltac:(lia) ltac:(lia)).
      rewrite idx_ok by lia. unfold fill_body. destruct (rd_some s' (i * n + j)) as (v & _ & ->); [lia|]. cbn [bind].
      rewrite flat_cell by lia. reflexivity.
    + apply wp_for_range with (Inv := fun _ s => length s = length m); [lia|auto|].
      intros j s' Hj Hs'. apply Hw; auto; lia.
Qed.

Theorem set_diagonal_cellwise n d (m : list T) :
  valid c n n m ->
  cellwise n n m (fun i j old => Some (if i =? j then d else old)) (set_diagonal_to_scalar c n d m).
Proof.
  intros Hm. pose proof (valid_bound _ _ _ _ Hm) as HB.
  assert (wp (set_diagonal_to_scalar c n d m)
    (fun s => length s = length m /\ forall p, nth_error s p =
        if (p <? n * n) && (p / n =? p mod n) then Some d else nth_error m p) (fun _ => False)) as H.
  { unfold set_diagonal_to_scalar.
    eapply wp_mono; [apply (wp_for_range 0 n m _ (fun k s => length s = length m /\ forall p, nth_error s p =
        if (p <? k * n) && (p / n =? p mod n) then Some d else nth_error m p) (fun _ => False))| |].
    - lia.
    - split; [auto|]. intros p. reflexivity.
    - intros i s Hi [Hs1 Hs2].
      destruct (valid_cell c n n m i i Hm ltac:(lia) ltac:(lia)).
      rewrite idx_ok by lia. rewrite wr_ok by lia. cbn [wp]. split; [rewrite length_upd; auto|].
      intros p. rewrite nth_error_upd, Hs2.
      destruct (Nat.eqb_spec p (i * n + i)) as [->|Hne].
      + rewrite (proj2 (Nat.ltb_lt _ (length s))) by lia.
        rewrite (proj2 (Nat.ltb_lt _ (S i * n))) by nia.
        rewrite Nat.div_add_l, Nat.div_small, Nat.add_0_r by lia.
        rewrite (Nat.add_comm (i * n)), Nat.mod_add, Nat.mod_small, Nat.eqb_refl by lia. reflexivity.
      + destruct (Nat.ltb_spec p (i * n)) as [Hlt|Hge].
        * rewrite (proj2 (Nat.ltb_lt p (S i * n))) by nia. reflexivity.
        * cbn [andb]. destruct (Nat.ltb_spec p (S i * n)) as [Hlt'|Hge']; [|reflexivity].
          cbn [andb]. assert (Hn : 0 < n) by lia.
          destruct (idx_split p n Hn) as (i' & j' & -> & Hj').
          assert (i' = i) by nia. subst i'.
          rewrite Nat.div_add_l, Nat.div_small, Nat.add_0_r by lia.
          rewrite (Nat.add_comm (i * n)), Nat.mod_add, Nat.mod_small by lia.
          destruct (Nat.eqb_spec i j'); [subst; lia|reflexivity].
    - intros s Hs; exact Hs.
    - trivial. }
  destruct (set_diagonal_to_scalar c n d m) as [s|]; cbn [wp cellwise] in *; [|contradiction].
  destruct H as [H1 H2]. split; [auto|split].
  - intros i j v Hi Hj Hv. unfold cell in *. rewrite H2.
    rewrite (proj2 (Nat.ltb_lt _ _) (idx_lt i j n n Hi Hj)).
    rewrite Nat.div_add_l, Nat.div_small, Nat.add_0_r by lia.
    rewrite (Nat.add_comm (i * n)), Nat.mod_add, Nat.mod_small by lia. cbn [andb].
    destruct (i =? j); [reflexivity|]. rewrite (Nat.add_comm j). exact Hv.
  - intros p Hp. rewrite H2. rewrite (proj2 (Nat.ltb_ge p (n * n))) by lia. reflexivity.
Qed.

End Elementwise.
