(** * Cholesky decomposition and inversion: element-type generic lemmas *)
From Verif Require Import Spec Matrix Wp Kernels Access.

Definition agree_on {T} (D : nat -> Prop) (t1 t2 : list T) : Prop :=
  forall p, D p -> nth_error t1 p = nth_error t2 p.

Lemma agree_on_upd {T} (D : nat -> Prop) (t1 t2 : list T) p v :
  agree_on D t1 t2 -> p < length t1 -> p < length t2 ->
  agree_on (fun q => D q \/ q = p) (upd t1 p v) (upd t2 p v).
Proof.
  intros H H1 H2 q Hq. rewrite !nth_error_upd.
  destruct (Nat.eqb_spec q p) as [->|Hne].
  - rewrite !(proj2 (Nat.ltb_lt _ _)) by lia. reflexivity.
  - apply H. destruct Hq; [auto|contradiction].
Qed.
Lemma agree_on_sub {T} (D D' : nat -> Prop) (t1 t2 : list T) : (forall p, D' p -> D p) -> agree_on D t1 t2 -> agree_on D' t1 t2.
Proof. intros H HA p Hp; apply HA, H, Hp. Qed.
Lemma agree_rd {T} (D : nat -> Prop) (t1 t2 : list T) p : agree_on D t1 t2 -> D p -> rd t1 p = rd t2 p.
Proof. intros H Hp. unfold rd. rewrite (H p Hp). reflexivity. Qed.

Lemma rres_for_range_ret {S1 S2 R1 R2} (Rel : nat -> S1 -> S2 -> Prop) (RelR : R1 -> R2 -> Prop) lo hi s1 s2 b1 b2 :
  lo <= hi -> Rel lo s1 s2 ->
  (forall k s1 s2, lo <= k < hi -> Rel k s1 s2 ->
     rres (fun o1 o2 => match o1, o2 with Next a, Next b => Rel (S k) a b | Return a, Return b => RelR a b | _, _ => False end)
       (b1 k s1) (b2 k s2)) ->
  rres (fun o1 o2 => match o1, o2 with Next a, Next b => Rel hi a b | Return a, Return b => RelR a b | _, _ => False end)
    (for_range_ret lo hi s1 b1) (for_range_ret lo hi s2 b2).
Proof.
  unfold for_range_ret. intros Hle Hs Hb. remember (hi - lo) as d eqn:Hd. revert lo s1 s2 Hle Hs Hd Hb.
  induction d as [|d IH]; intros lo s1 s2 Hle Hs Hd Hb; cbn [for_up_ret].
  - simpl. replace hi with lo by lia. exact Hs.
  - eapply rres_bind; [apply Hb; [lia|exact Hs]|].
    intros [a|a] [b|b] Hab _ _; try contradiction; [|exact Hab].
    apply IH; [lia|exact Hab|lia|]. intros; apply Hb; auto; lia.
Qed.

Lemma rres_for_range_i {S1 S2} (Rel : nat -> S1 -> S2 -> Prop) lo hi s1 s2 b1 b2 :
  lo <= hi -> Rel lo s1 s2 ->
  (forall k s1 s2, lo <= k < hi -> Rel k s1 s2 -> rres (Rel (S k)) (b1 k s1) (b2 k s2)) ->
  rres (Rel hi) (for_range lo hi s1 b1) (for_range lo hi s2 b2).
Proof.
  intros Hle Hs Hb. remember (hi - lo) as d eqn:Hd. revert lo s1 s2 Hle Hs Hd Hb.
  induction d as [|d IH]; intros lo s1 s2 Hle Hs Hd Hb.
  - rewrite !for_range_nil by lia. replace hi with lo by lia. exact Hs.
  - rewrite !for_range_cons by lia. eapply rres_bind; [apply Hb; [lia|exact Hs]|].
    intros a b Hab _ _. apply IH; [lia|exact Hab|lia|]. intros; apply Hb; auto; lia.
Qed.

Lemma rres_for_down_i {S1 S2} (Rel : nat -> S1 -> S2 -> Prop) n s1 s2 b1 b2 :
  Rel n s1 s2 -> (forall k s1 s2, k < n -> Rel (S k) s1 s2 -> rres (Rel k) (b1 k s1) (b2 k s2)) ->
  rres (Rel 0) (for_down n s1 b1) (for_down n s2 b2).
Proof.
  revert s1 s2; induction n as [|n IH]; intros s1 s2 Hs Hb; simpl; [exact Hs|].
  eapply rres_bind; [apply Hb; auto|]. intros; apply IH; auto.
Qed.

Lemma valid_length {T} c R C (l l' : list T) : valid c R C l -> length l' = length l -> valid c R C l'.
Proof. intros [H1 H2] Hl. split; [lia|]. unfold slice_ok in *. rewrite Hl. exact H2. Qed.

Section Chol.
Context {T : Type} (c : cfg) (N : num T).

Lemma subdot_ext K a f g f' g' : (forall k, k < K -> f k = f' k) -> (forall k, k < K -> g k = g' k) ->
  subdot N K a f g = subdot N K a f' g'.
Proof.
  intros Hf Hg. induction K as [|K IH]; [reflexivity|]. cbn [subdot].
  rewrite IH by (intros; auto). destruct (subdot N K a f' g'); [|reflexivity]. cbn [obind].
  rewrite Hf, Hg by lia. reflexivity.
Qed.

Lemma subdot_total K a f g : num_total N -> (forall k, k < K -> f k <> None) -> (forall k, k < K -> g k <> None) ->
  subdot N K a f g <> None.
Proof.
  intros HT Hf Hg. induction K as [|K IH]; cbn [subdot]; [congruence|].
  specialize (IH ltac:(intros; apply Hf; lia) ltac:(intros; apply Hg; lia)).
  destruct (subdot N K a f g) as [acc|]; [|congruence]. cbn [obind].
  specialize (Hf K ltac:(lia)). specialize (Hg K ltac:(lia)).
  destruct (f K) as [u|]; [|congruence]. destruct (g K) as [v|]; [|congruence]. cbn [obind].
  destruct HT as (_ & Hs & Hm & _). specialize (Hm u v). destruct (o_mul N u v) as [p|]; [|congruence]. apply Hs.
Qed.

Lemma osum_total lo cnt f : num_total N -> (forall k, lo <= k < lo + cnt -> f k <> None) -> osum N lo cnt f <> None.
Proof.
  intros HT Hf. induction cnt as [|cnt IH]; cbn [osum]; [congruence|].
  specialize (IH ltac:(intros; apply Hf; lia)). destruct (osum N lo cnt f) as [acc|]; [|congruence]. cbn [obind].
  specialize (Hf (lo + cnt) ltac:(lia)). destruct (f (lo + cnt)); [|congruence]. apply HT.
Qed.

Lemma subdot_loop K a (f g : nat -> option T) :
  of_opt (subdot N K a f g) =
  for_range 0 K a (fun k acc =>
    u <- of_opt (f k) ;; v <- of_opt (g k) ;; p <- n_mul N u v ;; n_sub N acc p).
Proof.
  induction K as [|K IH].
  - reflexivity.
  - rewrite for_range_snoc by lia. rewrite <- IH. cbn [subdot].
    rewrite of_opt_obind. apply bind_ext; intros acc _.
    rewrite !of_opt_obind. apply bind_ext; intros u _.
    rewrite !of_opt_obind. apply bind_ext; intros v _.
    rewrite !of_opt_obind. reflexivity.
Qed.

Lemma osum_loop lo cnt (f : nat -> option T) :
  of_opt (osum N lo cnt f) = sum_range N lo (lo + cnt) (fun k => of_opt (f k)).
Proof.
  unfold sum_range. induction cnt as [|cnt IH].
  - rewrite for_range_nil by lia. reflexivity.
  - replace (lo + S cnt) with (S (lo + cnt)) by lia. rewrite for_range_snoc by lia. rewrite <- IH. cbn [osum].
    rewrite of_opt_obind. apply bind_ext; intros acc _.
    rewrite !of_opt_obind. reflexivity.
Qed.

Lemma osum_ext lo cnt f f' : (forall k, lo <= k < lo + cnt -> f k = f' k) -> osum N lo cnt f = osum N lo cnt f'.
Proof.
  intros Hf. induction cnt as [|cnt IH]; [reflexivity|]. cbn [osum].
  rewrite IH by (intros; apply Hf; lia). rewrite Hf by lia. reflexivity.
Qed.

Lemma sum_range_ext lo hi f f' : (forall k, lo <= k < hi -> f k = f' k) -> sum_range N lo hi f = sum_range N lo hi f'.
Proof.
  intros Hf. unfold sum_range. destruct (Nat.lt_ge_cases lo hi).
  - apply for_range_ext with (P := fun _ _ => True); [lia|auto|].
    intros k s Hk _. rewrite Hf by lia. split; [reflexivity|]. destruct (bind _ _); exact I.
  - rewrite !for_range_nil by lia. reflexivity.
Qed.

Lemma chol_inner_subdot i ie je (t : list T) sum :
  ie + i <= length t -> je + i <= length t -> 2 * length t <= usize_max c ->
  chol_inner c N i ie je t sum =
  of_opt (subdot N i sum (fun k => nth_error t (ie + k)) (fun k => nth_error t (je + k))).
Proof.
  intros Hi Hj Hu. unfold chol_inner. rewrite uadd_ok by lia. cbn [bind].
  rewrite subdot_loop.
  assert (E0 : (ie, je, sum) = (fun k (s : T) => (ie + k, je + k, s)) 0 sum) by (cbn; f_equal; f_equal; lia).
  rewrite E0.
  rewrite (while_for (fun k (s : T) => (ie + k, je + k, s)) 0 i (S i) sum _ _
    (fun k acc => u <- of_opt (nth_error t (ie + k)) ;; v <- of_opt (nth_error t (je + k)) ;; p <- n_mul N u v ;; n_sub N acc p)); [|lia|lia| |].
  - rewrite bind_assoc. cbn [bind]. apply bind_ret.
  - intros s. apply Nat.ltb_ge. lia.
  - intros k s Hk. split; [apply Nat.ltb_lt; lia|].
    rewrite (rd_of_opt t (ie + k)) by lia. rewrite ?bind_assoc. apply bind_ext; intros u _.
    rewrite (rd_of_opt t (je + k)) by lia. rewrite ?bind_assoc. apply bind_ext; intros v _.
    rewrite ?bind_assoc. apply bind_ext; intros p _. apply bind_ext; intros s' _.
    rewrite uadd_ok by lia. cbn [bind]. rewrite uadd_ok by lia. cbn [bind]. f_equal; f_equal; f_equal; lia.
Qed.

(** ** what the decomposition computes *)

(** partial sum s_ij = A_ij - sum_{k<i} L_ik L_jk *)
Definition csum (n : nat) (A L : list T) (i j : nat) : option T :=
  obind (cell n A i j) (fun a => subdot N i a (fun k => cell n L i k) (fun k => cell n L j k)).

(** column i of L down to row hi (exclusive), with reciprocal [d] of the diagonal element *)
Definition chol_col_upto (n : nat) (A L : list T) (i hi : nat) (d : T) : Prop :=
  exists s l, csum n A L i i = Some s /\ n_le N s (n_zero N) = false /\
    o_sqrt N s = Some l /\ o_recip N l = Some d /\ cell n L i i = Some l /\
    forall j, i < j < hi -> exists s' v, csum n A L i j = Some s' /\ o_mul N s' d = Some v /\ cell n L j i = Some v.
Definition chol_col (n : nat) (A L : list T) (i : nat) : Prop := exists d, chol_col_upto n A L i n d.

(** outer invariant *)
Definition chol_inv (n : nat) (A : list T) (i : nat) (t : list T) : Prop :=
  same_tail n n A t /\
  (forall p q, p < n -> q < n -> p < q \/ (p = q /\ i <= p) -> cell n t p q = cell n A p q) /\
  (forall i', i' < i -> chol_col n A t i').

Definition chol_inv_j (n : nat) (A : list T) (i j : nat) (s : list T * T) : Prop :=
  let '(t, d) := s in
  same_tail n n A t /\
  (forall p q, p < n -> q < n -> p < q \/ (p = q /\ (if j =? i then i else S i) <= p) -> cell n t p q = cell n A p q) /\
  (forall i', i' < i -> chol_col n A t i') /\
  (i < j -> chol_col_upto n A t i j d).

Lemma cell_inj n (t : list T) p q p' q' v : q < n -> q' < n -> (p, q) <> (p', q') ->
  cell n (upd t (p * n + q) v) p' q' = cell n t p' q'.
Proof. intros Hq Hq' Hne. unfold cell. apply nth_error_upd_other. intros Heq. apply idx_inj in Heq; auto.
  destruct Heq; subst; congruence. Qed.
Lemma cell_upd_same n (t : list T) p q v : p * n + q < length t -> cell n (upd t (p * n + q) v) p q = Some v.
Proof. apply nth_error_upd_same. Qed.

Lemma csum_frame n A (L L' : list T) i j :
  (forall k, k < i -> cell n L' i k = cell n L i k) -> (forall k, k < i -> cell n L' j k = cell n L j k) ->
  csum n A L' i j = csum n A L i j.
Proof. intros H1 H2. unfold csum. destruct (cell n A i j); [|reflexivity]. cbn [obind]. apply subdot_ext; auto. Qed.

Lemma chol_col_frame n A (L L' : list T) i hi d :
  i < hi -> (forall p k, i <= p < hi -> k <= i -> cell n L' p k = cell n L p k) ->
  chol_col_upto n A L i hi d -> chol_col_upto n A L' i hi d.
Proof.
  intros Hi Hf (s & l & H1 & H2 & H3 & H4 & H5 & H6). exists s, l.
  split; [rewrite (csum_frame n A L); auto; intros; apply Hf; lia|]. do 3 (split; [assumption|]).
  split; [rewrite Hf; auto; lia|].
  intros j Hj. destruct (H6 j Hj) as (s' & v & ? & ? & ?). exists s', v.
  split; [rewrite (csum_frame n A L); auto; intros; apply Hf; lia|]. split; auto. rewrite Hf; auto; lia.
Qed.

Lemma same_tail_upd n (A t : list T) p q v : p < n -> q < n -> same_tail n n A t -> same_tail n n A (upd t (p * n + q) v).
Proof.
  intros Hp Hq [H1 H2]. split; [rewrite length_upd; auto|]. intros r Hr. rewrite nth_error_upd_other; auto.
  pose proof (idx_lt p q n n Hp Hq). lia.
Qed.

Lemma chol_body_spec n i j (A : list T) s :
  valid c n n A -> i <= j < n -> chol_inv_j n A i j s ->
  wp (chol_body c N n i j s)
    (fun o => match o with
      | Next s' => chol_inv_j n A i (S j) s'
      | Return t => same_tail n n A t /\ (forall i', i' < i -> chol_col n A t i') /\
                    exists v, csum n A t i i = Some v /\ n_le N v (n_zero N) = true
      end)
    (fun e => e = NumPanic /\ ~ num_total N).
Proof.
  intros HA Hij. destruct s as [t d]. intros (Ht & Hu & Hcols & Hcur).
  pose proof (valid_bound _ _ _ _ HA) as HB.
  assert (HL : length t = length A) by apply Ht.
  assert (Hii : i * n + i < n * n) by (apply idx_lt; lia).
  assert (Hij' : i * n + j < n * n) by (apply idx_lt; lia).
  assert (Hji : j * n + i < n * n) by (apply idx_lt; lia).
  unfold chol_body. rewrite idx_ok by lia.
  rewrite (rd_of_opt t) by lia. fold (cell n t i j).
  assert (Hcell : cell n t i j = cell n A i j).
  { apply Hu; try lia. destruct (Nat.eq_dec i j); [right|left; lia]. subst. rewrite Nat.eqb_refl. lia. }
  rewrite Hcell. rewrite !umul_ok by lia. cbn [bind].
  assert (Hin : forall sm, chol_inner c N i (i * n) (j * n) t sm =
     of_opt (subdot N i sm (fun k => cell n t i k) (fun k => cell n t j k))).
  { intros sm. apply chol_inner_subdot; lia. }
  destruct (cell_some c n n A i j HA ltac:(lia) ltac:(lia)) as (a & Ha & _). rewrite Ha. cbn [of_opt bind]. rewrite Hin.
  destruct (subdot N i a _ _) as [sum|] eqn:Hsum.
  2:{ cbn. split; [reflexivity|]. intros HT. revert Hsum. apply subdot_total; auto.
      - intros k Hk. destruct (cell_some c n n t i k (valid_length c n n A t HA HL) ltac:(lia) ltac:(lia)) as (u & Hu' & _). cbn. congruence.
      - intros k Hk. destruct (cell_some c n n t j k (valid_length c n n A t HA HL) ltac:(lia) ltac:(lia)) as (u & Hu' & _). cbn. congruence. } cbn [of_opt bind].
  assert (Hcs : csum n A t i j = Some sum) by (unfold csum; rewrite Ha; exact Hsum).
  unfold n_mul. destruct (o_mul N sum d) as [v|] eqn:Hv; [|cbn; split; [reflexivity|intros HT; revert Hv; apply HT]]. cbn [of_opt bind].
  rewrite uadd_ok by lia. cbn [bind]. rewrite wr_ok by lia. cbn [bind].
  destruct (Nat.eqb_spec i j) as [<-|Hne].
  - (* diagonal *)
    assert (Hcs1 : csum n A (upd t (i * n + i) v) i i = Some sum).
    { rewrite (csum_frame n A t); auto; intros k Hk; apply cell_inj; try lia; intros E; inversion E; lia. }
    destruct (n_le N sum (n_zero N)) eqn:Hle.
    + cbn [wp]. split; [apply same_tail_upd; auto; lia|]. split.
      * intros i' Hi'. destruct (Hcols i' Hi') as [d' Hd']. exists d'. eapply chol_col_frame; [lia| |exact Hd'].
        intros p k Hp Hk. apply cell_inj; try lia. intros E; inversion E; lia.
      * exists sum. auto.
    + unfold n_sqrt. destruct (o_sqrt N sum) as [l|] eqn:Hl; [|cbn; split; [reflexivity|intros (_ & _ & _ & _ & HT); destruct (HT sum Hle) as (? & ? & _); congruence]]. cbn [of_opt bind].
      rewrite ?uadd_ok by lia. cbn [bind]. rewrite wr_ok by (rewrite length_upd; lia). cbn [bind].
      unfold n_recip. destruct (o_recip N l) as [r|] eqn:Hr; [|cbn; split; [reflexivity|intros (_ & _ & _ & _ & HT); destruct (HT sum Hle) as (? & ? & ?); congruence]]. cbn [of_opt bind wp].
      set (t1 := upd t (i * n + i) v). set (t2 := upd t1 (i * n + i) l).
      assert (Hc2 : forall p q, p < n -> q < n -> (p, q) <> (i, i) -> cell n t2 p q = cell n t p q).
      { intros p q Hp Hq Hn. unfold t2, t1. rewrite !cell_inj; auto; lia. }
      split; [|split; [|split]].
      * apply same_tail_upd; [lia|lia|]. apply same_tail_upd; auto; lia.
      * intros p q Hp Hq Hpq. rewrite (proj2 (Nat.eqb_neq (S i) i)) in Hpq by lia.
        rewrite Hc2; auto; [|intros E; inversion E; lia]. apply Hu; auto. rewrite Nat.eqb_refl. lia.
      * intros i' Hi'. destruct (Hcols i' Hi') as [d' Hd']. exists d'. eapply chol_col_frame; [lia| |exact Hd'].
        intros p k Hp Hk. apply Hc2; try lia. intros E; inversion E; lia.
      * intros _. exists sum, l. split.
        { rewrite (csum_frame n A t); auto; intros k Hk; apply Hc2; try lia; intros E; inversion E; lia. }
        do 3 (split; [assumption|]). split; [apply cell_upd_same; unfold t1; rewrite length_upd; lia|].
        intros j Hj. lia.
  - (* below the diagonal *)
    cbn [wp]. assert (Hlt : i < j) by lia.
    assert (Hc2 : forall p q, p < n -> q < n -> (p, q) <> (j, i) -> cell n (upd t (j * n + i) v) p q = cell n t p q).
    { intros p q Hp Hq Hn. apply cell_inj; auto; lia. }
    split; [apply same_tail_upd; auto; lia|]. split; [|split].
    + intros p q Hp Hq Hpq. rewrite (proj2 (Nat.eqb_neq (S j) i)) in Hpq by lia.
      rewrite Hc2; auto; [|intros E; inversion E; lia]. apply Hu; auto. rewrite (proj2 (Nat.eqb_neq j i)) by lia. lia.
    + intros i' Hi'. destruct (Hcols i' Hi') as [d' Hd']. exists d'. eapply chol_col_frame; [lia| |exact Hd'].
      intros p k Hp Hk. apply Hc2; try lia. intros E; inversion E; lia.
    + intros _. destruct (Hcur Hlt) as (s & l & H1 & H2 & H3 & H4 & H5 & H6).
      assert (Hfr : forall p k, p < n -> k < i -> cell n (upd t (j * n + i) v) p k = cell n t p k).
      { intros p k Hp Hk. apply Hc2; try lia. intros E; inversion E; lia. }
      exists s, l. split; [rewrite (csum_frame n A t); auto; intros; apply Hfr; lia|].
      do 3 (split; [assumption|]).
      split; [rewrite Hc2; auto; try lia; intros E; inversion E; lia|].
      intros j' Hj'. destruct (Nat.eq_dec j' j) as [->|Hnj].
      * exists sum, v. split; [rewrite (csum_frame n A t); auto; intros; apply Hfr; lia|].
        split; [auto|]. apply cell_upd_same. lia.
      * destruct (H6 j' ltac:(lia)) as (s' & v' & ? & ? & ?). exists s', v'.
        split; [rewrite (csum_frame n A t); auto; intros; apply Hfr; lia|]. split; [auto|].
        rewrite Hc2; auto; try lia. intros E; inversion E; lia.
Qed.

Lemma zero_upper_spec n (t : list T) : valid c n n t ->
  exists t', chol_zero_upper c N n t = Ok t' /\ same_tail n n t t' /\
    forall p q, p < n -> q < n -> cell n t' p q = if p <? q then Some (n_zero N) else cell n t p q.
Proof.
  intros Ht. pose proof (valid_bound _ _ _ _ Ht) as HB.
  assert (H : wp (chol_zero_upper c N n t) (fun t' => same_tail n n t t' /\
    forall p q, p < n -> q < n -> cell n t' p q = if (p <? q) && (p <? n) then Some (n_zero N) else cell n t p q) (fun _ => False)).
  { unfold chol_zero_upper.
    apply (wp_for_range 0 n t _ (fun i t' => same_tail n n t t' /\
      forall p q, p < n -> q < n -> cell n t' p q = if (p <? q) && (p <? i) then Some (n_zero N) else cell n t p q)).
    - lia.
    - split; [split; auto|]. intros p q Hp Hq. rewrite andb_false_r. reflexivity.
    - intros i s Hi [Hs1 Hs2]. assert (i * n + i < n * n) by (apply idx_lt; lia).
      assert (Hin : i < length t) by nia.
      rewrite uadd_ok by lia. cbn [bind]. replace (i + 1) with (S i) by lia.
      eapply wp_mono with (E := fun _ => False); [apply (wp_for_range (S i) n s _ (fun j t' => same_tail n n t t' /\
      forall p q, p < n -> q < n -> cell n t' p q = if (p <? q) && ((p <? i) || ((p =? i) && (q <? j))) then Some (n_zero N) else cell n t p q) (fun _ => False))| |auto].
      + lia.
      + split; [auto|]. intros p q Hp Hq. rewrite Hs2 by auto.
        destruct (Nat.ltb_spec p q), (Nat.ltb_spec p i), (Nat.eqb_spec p i), (Nat.ltb_spec q (S i)); cbn; auto; lia.
      + intros j s' Hj [Hs1' Hs2']. assert (i * n + j < n * n) by (apply idx_lt; lia).
        assert (length s' = length t) by apply Hs1'.
        rewrite idx_ok by lia. rewrite wr_ok by lia. cbn [wp]. split.
        * destruct Hs1' as [L1 L2]. split; [rewrite length_upd; auto|]. intros r Hr. rewrite nth_error_upd_other by lia. auto.
        * intros p q Hp Hq.
          destruct (Nat.eq_dec p i) as [->|Hn]; [destruct (Nat.eq_dec q j) as [->|Hn]|].
          -- rewrite cell_upd_same by lia.
             rewrite (proj2 (Nat.ltb_lt i j)), Nat.eqb_refl, (proj2 (Nat.ltb_lt j (S j))) by lia.
             rewrite orb_true_r. reflexivity.
          -- rewrite cell_inj by (try lia; intros E; inversion E; lia). rewrite Hs2' by auto.
             rewrite Nat.eqb_refl. destruct (Nat.ltb_spec i q), (Nat.ltb_spec i i), (Nat.ltb_spec q j), (Nat.ltb_spec q (S j)); cbn; auto; lia.
          -- rewrite cell_inj by (try lia; intros E; inversion E; lia). rewrite Hs2' by auto.
             rewrite (proj2 (Nat.eqb_neq p i)) by auto. cbn. reflexivity.
      + intros s' [Hs1' Hs2']. split; [auto|]. intros p q Hp Hq. rewrite Hs2' by auto.
        destruct (Nat.ltb_spec p q), (Nat.ltb_spec p i), (Nat.eqb_spec p i), (Nat.ltb_spec q n), (Nat.ltb_spec p (S i)); cbn; auto; lia. }
  destruct (chol_zero_upper c N n t) as [t'|]; cbn [wp] in H; [|contradiction].
  destruct H as [H1 H2]. exists t'; split; [auto|split; [auto|]]. intros p q Hp Hq. rewrite H2 by auto.
  rewrite (proj2 (Nat.ltb_lt p n)) by auto. rewrite andb_true_r. reflexivity.
Qed.

(** the outcome of the decomposition *)
Definition chol_ok (n : nat) (A L : list T) : Prop :=
  same_tail n n A L /\
  (forall i, i < n -> chol_col n A L i) /\
  (forall p q, p < q < n -> cell n L p q = Some (n_zero N)).
Definition chol_fail (n : nat) (A t : list T) : Prop :=
  same_tail n n A t /\
  exists i, i < n /\ (forall i', i' < i -> chol_col n A t i') /\
    exists v, csum n A t i i = Some v /\ n_le N v (n_zero N) = true.

Lemma cholesky_spec n (A : list T) : 1 <= n -> valid c n n A ->
  match cholesky_decompose_lower c N n n A with
  | Ok (true, L) => chol_ok n A L
  | Ok (false, t) => chol_fail n A t
  | Panic e => e = NumPanic /\ ~ num_total N
  end.
Proof.
  intros Hn HA. pose proof (valid_bound _ _ _ _ HA) as HB.
  unfold cholesky_decompose_lower.
  assert (Hd : forall b, b = true -> dassert c b = Ok tt).
  { intros b ->. unfold dassert. destruct (no_assert c), (debug_assertions c); reflexivity. }
  rewrite (Hd (n =? n)) by apply Nat.eqb_refl. cbn [bind]. rewrite (Hd (0 <? n)) by (apply Nat.ltb_lt; lia). cbn [bind].
  assert (H : wp (for_range_ret 0 n (A, n_zero N) (fun i s => for_range_ret i n s (chol_body c N n i)))
     (fun o => match o with Next s => chol_inv n A n (fst s) | Return t => chol_fail n A t end) (fun e => e = NumPanic /\ ~ num_total N)).
  { apply (wp_for_range_ret 0 n (A, n_zero N) (fun i s => for_range_ret i n s (chol_body c N n i))
      (fun i s => chol_inv n A i (fst s)) (chol_fail n A)); [lia| |].
    - split; [split; auto|]. split; [auto|]. intros; lia.
    - intros i [t d] Hi (H1 & H2 & H3). cbn [fst] in *.
      eapply wp_mono; [apply (wp_for_range_ret i n (t, d) (chol_body c N n i) (chol_inv_j n A i) (chol_fail n A) (fun e => e = NumPanic /\ ~ num_total N))| |].
      + lia.
      + split; [auto|split; [|split; [auto|lia]]]. intros p q Hp Hq Hpq. rewrite Nat.eqb_refl in Hpq. apply H2; auto.
      + intros j s Hj Hs. eapply wp_mono; [apply chol_body_spec; [exact HA|exact Hj|exact Hs]| |auto].
        intros [s'|t'] Ho; [exact Ho|]. destruct Ho as (G1 & G2 & v & G3 & G4). split; [auto|].
        exists i. split; [lia|]. split; [auto|]. exists v; auto.
      + intros [[t' d']|t'] Ho; [|exact Ho]. cbn [fst]. destruct Ho as (G1 & G2 & G3 & G4). split; [auto|split].
        * intros p q Hp Hq Hpq. apply G2; auto. rewrite (proj2 (Nat.eqb_neq n i)) by lia. lia.
        * intros i' Hi'. destruct (Nat.eq_dec i' i) as [->|]; [exists d'; apply G4; lia|apply G3; lia].
      + trivial. }
  destruct (for_range_ret _ _ _ _) as [[[t d]|t]|e]; cbn [wp bind fst] in *; [|exact H|exact H].
  destruct H as (H1 & H2 & H3).
  destruct (zero_upper_spec n t) as (t' & -> & Z1 & Z2); [eapply valid_length; [exact HA|apply H1]|].
  cbn [bind]. split; [|split].
  - destruct H1, Z1; split; [congruence|]. intros p Hp. rewrite H4; auto.
  - intros i Hi. destruct (H3 i Hi) as [d' Hd']. exists d'. eapply chol_col_frame; [lia| |exact Hd'].
    intros p k Hp Hk. rewrite Z2 by lia. rewrite (proj2 (Nat.ltb_ge p k)) by lia. reflexivity.
  - intros p q Hpq. rewrite Z2 by lia. rewrite (proj2 (Nat.ltb_lt p q)) by lia. reflexivity.
Qed.

(** ** two runs *)
Definition upper (n p : nat) : Prop := exists i j, p = i * n + j /\ i <= j < n.

Lemma chol_inner_agree D i ie je (t1 t2 : list T) sum :
  ie + i <= length t1 -> je + i <= length t1 -> 2 * length t1 <= usize_max c ->
  ie + i <= length t2 -> je + i <= length t2 -> 2 * length t2 <= usize_max c ->
  agree_on D t1 t2 -> (forall k, k < i -> D (ie + k) /\ D (je + k)) ->
  chol_inner c N i ie je t1 sum = chol_inner c N i ie je t2 sum.
Proof.
  intros. rewrite !chol_inner_subdot by auto. f_equal. apply subdot_ext; intros k Hk; apply H5; apply H6; auto.
Qed.

(** positions known to agree when step (i, j) starts *)
Definition chol_dom (D : nat -> Prop) (n i j p : nat) : Prop :=
  D p \/ exists r k, p = r * n + k /\ r < n /\ k < n /\ (k < i \/ (k = i /\ r < j)).

Lemma cholesky_two_runs (D : nat -> Prop) n (A1 A2 : list T) :
  1 <= n -> valid c n n A1 -> valid c n n A2 -> (forall p, upper n p -> D p) -> agree_on D A1 A2 ->
  rres (fun r1 r2 => fst r1 = fst r2 /\ length (snd r1) = length A1 /\ length (snd r2) = length A2 /\
          agree_on D (snd r1) (snd r2) /\
          (fst r1 = true -> forall i j, i < n -> j < n -> cell n (snd r1) i j = cell n (snd r2) i j))
    (cholesky_decompose_lower c N n n A1) (cholesky_decompose_lower c N n n A2).
Proof.
  intros Hn H1 H2 HD HA. pose proof (valid_bound _ _ _ _ H1) as HB1. pose proof (valid_bound _ _ _ _ H2) as HB2.
  unfold cholesky_decompose_lower.
  assert (Hd : forall b, b = true -> dassert c b = Ok tt).
  { intros b ->. unfold dassert. destruct (no_assert c), (debug_assertions c); reflexivity. }
  rewrite (Hd (n =? n)) by apply Nat.eqb_refl. cbn [bind]. rewrite (Hd (0 <? n)) by (apply Nat.ltb_lt; lia). cbn [bind].
  set (Rel := fun (E : nat -> Prop) (s1 s2 : list T * T) => length (fst s1) = length A1 /\ length (fst s2) = length A2 /\
     snd s1 = snd s2 /\ agree_on E (fst s1) (fst s2)).
  set (RelR := fun (t1 t2 : list T) => length t1 = length A1 /\ length t2 = length A2 /\ agree_on D t1 t2).
  eapply rres_bind.
  - apply rres_for_range_ret with (Rel := fun i => Rel (chol_dom D n i 0)) (RelR := RelR); [lia| |].
    + split; [auto|]. split; [auto|]. split; [auto|]. eapply agree_on_sub; [|exact HA].
      intros p [?|(r & k & ? & ? & ? & [?|[? ?]])]; [auto|lia|lia].
    + intros i s1 s2 Hi Hs.
      eapply rres_mono; [apply rres_for_range_ret with (Rel := fun j => Rel (chol_dom D n i j)) (RelR := RelR) (lo := i)|].
      * lia.
      * destruct Hs as (L1 & L2 & L3 & L4). split; [auto|]. split; [auto|]. split; [auto|].
        eapply agree_on_sub; [|exact L4]. intros p [?|(r & k & -> & ? & ? & [?|[-> ?]])]; [left; auto| |].
        -- right. exists r, k. auto.
        -- left. apply HD. exists r, i. split; [auto|lia].
      * intros j [t1 d1] [t2 d2] Hj (L1 & L2 & L3 & L4). cbn [fst snd] in *. subst d2.
        assert (Hii : i * n + i < n * n) by (apply idx_lt; lia).
        assert (Hij' : i * n + j < n * n) by (apply idx_lt; lia).
        assert (Hji : j * n + i < n * n) by (apply idx_lt; lia).
        unfold chol_body. rewrite !idx_ok by lia.
        rewrite (agree_rd _ t1 t2 (i * n + j) L4) by (left; apply HD; exists i, j; split; [auto|lia]).
        destruct (rd t2 (i * n + j)) as [sum0|]; [|cbn; reflexivity]. cbn [bind].
        rewrite !umul_ok by lia. cbn [bind].
        rewrite (chol_inner_agree (chol_dom D n i j) i (i * n) (j * n) t1 t2 sum0); try lia; try exact L4.
        2:{ intros k Hk. split; right; [exists i, k|exists j, k]; repeat split; auto; lia. }
        destruct (chol_inner c N i (i * n) (j * n) t2 sum0) as [sum|]; [|cbn; reflexivity]. cbn [bind].
        destruct (n_mul N sum d1) as [v|]; [|cbn; reflexivity]. cbn [bind].
        rewrite !uadd_ok by lia. cbn [bind]. rewrite !wr_ok by lia. cbn [bind].
        assert (Hag : agree_on (chol_dom D n i (S j)) (upd t1 (j * n + i) v) (upd t2 (j * n + i) v)).
        { eapply agree_on_sub; [|apply agree_on_upd; [exact L4|lia|lia]].
          intros p [?|(r & k & -> & ? & ? & [?|[-> ?]])]; [left; left; auto| |].
          - left; right. exists r, k. auto.
          - destruct (Nat.eq_dec r j) as [->|]; [right; auto|left; right]. exists r, i. repeat split; auto; lia. }
        destruct (i =? j) eqn:Eij; [|cbn; unfold Rel; cbn [fst snd]; rewrite !length_upd; auto].
        apply Nat.eqb_eq in Eij; subst j.
        destruct (n_le N sum (n_zero N)).
        -- cbn. unfold RelR. rewrite !length_upd. split; [auto|split; [auto|]]. eapply agree_on_sub; [|exact Hag]. intros p ?; left; auto.
        -- destruct (n_sqrt N sum) as [l|]; [|cbn; reflexivity]. cbn [bind].
           rewrite !wr_ok by (rewrite length_upd; lia). cbn [bind].
           destruct (n_recip N l) as [r|]; [|cbn; reflexivity]. cbn.
           unfold Rel; cbn [fst snd]. rewrite !length_upd. split; [auto|]. split; [auto|]. split; [auto|].
           eapply agree_on_sub; [|apply agree_on_upd; [exact Hag|rewrite length_upd; lia|rewrite length_upd; lia]]. intros p Hp; left; exact Hp.
      * intros [s1'|r1] [s2'|r2] Ho; try contradiction; [|exact Ho].
        destruct Ho as (L1 & L2 & L3 & L4). split; [auto|]. split; [auto|]. split; [auto|].
        eapply agree_on_sub; [|exact L4]. intros p [?|(r & k & -> & ? & ? & [?|[-> ?]])]; [left; auto| |lia].
        right. exists r, k. repeat split; auto. lia.
  - intros [[t1 d1]|t1] [[t2 d2]|t2] Ho E1 E2; try contradiction.
    + destruct Ho as (L1 & L2 & _ & L4). cbn [fst] in *.
      destruct (zero_upper_spec n t1) as (t1' & -> & Z1 & Z2); [exact (valid_length c n n A1 t1 H1 L1)|].
      destruct (zero_upper_spec n t2) as (t2' & -> & Z3 & Z4); [exact (valid_length c n n A2 t2 H2 L2)|].
      cbn [bind rres fst snd]. split; [auto|]. split; [destruct Z1; congruence|]. split; [destruct Z3; congruence|].
      assert (Hcells : forall i j, i < n -> j < n -> cell n t1' i j = cell n t2' i j).
      { intros i j Hi Hj. rewrite Z2, Z4 by auto. destruct (i <? j); [auto|].
        apply L4. right. exists i, j. auto. }
      split; [|auto].
      intros p Hp. destruct (Nat.lt_ge_cases p (n * n)) as [Hlt|Hge].
      * destruct (idx_split_lt p n n Hlt) as (i & j & -> & ? & ?). apply Hcells; auto.
      * destruct Z1 as [_ Z1], Z3 as [_ Z3]. rewrite Z1, Z3 by auto. apply L4. left; auto.
    + destruct Ho as (L1 & L2 & L4). cbn. split; [auto|]. split; [auto|]. split; [auto|]. split; [auto|]. discriminate.
Qed.

End Chol.
