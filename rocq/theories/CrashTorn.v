(** * Which cells a kernel that panics has written *)
From Verif Require Import Wp Kernels Crash CrashErase SpecCrash CrashKernels.

Section Torn.
Context {T : Type} (c : cfg) (N : num T).
Notation cells := (nat -> nat -> T -> option T).

Definition left_up (R C : nat) (f : cells) (old s : list T) (p : panic) : Prop :=
  p = NumPanic /\ same_tail R C old s /\ exists k, torn_up R C k (cell C old) (fun i j => obind (cell C old i j) (f i j)) (cell C s).
Definition left_down (R C : nat) (f : cells) (old s : list T) (p : panic) : Prop :=
  p = NumPanic /\ same_tail R C old s /\ exists k, torn_down R C k (cell C old) (fun i j => obind (cell C old i j) (f i j)) (cell C s).

Lemma fill_left_up R C f old s k v : R * C <= length old -> k < R * C -> fill_inv (fun p => p < k) (flat C f) old s -> nth_error old k = Some v -> flat C f k v = None ->
  left_up R C f old s NumPanic.
Proof.
  intros HL Hk (H1 & H2 & H3) Hv Hf. split; [reflexivity|]. split; [split; [exact H1|intros p Hp; apply H3; lia]|]. exists k. split; [exact Hk|]. intros i j Hi Hj.
  pose proof (idx_lt i j R C Hi Hj) as Hij. destruct (rd_some old (i * C + j)) as (w & Hw & _); [lia|]. change (nth_error old (i * C + j)) with (cell C old i j) in Hw. rewrite Hw. cbn [obind].
  split.
  - unfold cell. destruct (Nat.ltb_spec (i * C + j) k); [|rewrite <- Hw; apply H3; lia]. rewrite <- (flat_cell C f i j w) by exact Hj. apply H2; [lia|exact Hw].
  - intros E. rewrite <- (flat_cell C f i j w) by exact Hj. unfold cell in Hw. rewrite E in *. congruence.
Qed.
Lemma fill_left_down R C f old s k v : R * C <= length old -> k < R * C -> fill_inv (fun p => k < p < R * C) (flat C f) old s -> nth_error old k = Some v -> flat C f k v = None ->
  left_down R C f old s NumPanic.
Proof.
  intros HL Hk (H1 & H2 & H3) Hv Hf. split; [reflexivity|]. split; [split; [exact H1|intros p Hp; apply H3; lia]|]. exists k. split; [exact Hk|]. intros i j Hi Hj.
  pose proof (idx_lt i j R C Hi Hj) as Hij. destruct (rd_some old (i * C + j)) as (w & Hw & _); [lia|]. change (nth_error old (i * C + j)) with (cell C old i j) in Hw. rewrite Hw. cbn [obind].
  split.
  - unfold cell. destruct (Nat.ltb_spec k (i * C + j)); [|rewrite <- Hw; apply H3; lia]. rewrite <- (flat_cell C f i j w) by exact Hj. apply H2; [lia|exact Hw].
  - intros E. rewrite <- (flat_cell C f i j w) by exact Hj. unfold cell in Hw. rewrite E in *. congruence.
Qed.

(** element by element, from the last one on *)
Lemma down_left R C (f : cells) (old : list T) body : R * C <= length old ->
  (forall p s, p < R * C -> length s = length old -> body p s = lastly s (fill_body (flat C f) p s)) ->
  cwp (cfor_down (R * C) old body) (fun _ => True) (left_down R C f old).
Proof.
  intros HL Hb. eapply cwp_mono; [apply (cwp_down (R * C) old body (fun k => fill_inv (fun p => k <= p < R * C) (flat C f) old) (left_down R C f old))|auto|auto].
  - eapply fill_inv_ext; [|apply fill_inv_start]. cbn; lia.
  - intros i s Hi Hinv. rewrite Hb; [|exact Hi|apply Hinv]. apply cwp_lastly. eapply wp_mono; [eapply (fill_step _ (fun p => i <= p < R * C) _ _ _ i (fun p => p = NumPanic /\ exists v, nth_error old i = Some v /\ flat C f i v = None)); [| | |exact Hinv|]|auto|].
    + lia.
    + cbn; lia.
    + cbn; lia.
    + intros v Hv Hf. split; [reflexivity|]. exists v. auto.
    + intros p (-> & v & Hv & Hf). eapply fill_left_down; eauto.
Qed.

Lemma add_b_left R C (a b : list T) : valid c R C a -> valid c R C b ->
  cwp (add_inplace_b_cr c N R C a b) (fun _ => True) (left_down R C (fun i j old => obind (cell C a i j) (fun u => o_add N old u)) b).
Proof.
  intros Ha Hb. pose proof (valid_bound _ _ _ _ Ha). pose proof (valid_bound _ _ _ _ Hb). unfold add_inplace_b_cr, m_len. rewrite umul_ok by lia. cbn [calc].
  apply down_left; [lia|]. intros p s Hp Hs. f_equal. destruct (idx_split_lt p R C Hp) as (i & j & -> & Hi & Hj). unfold fill_body.
  destruct (rd_some s (i * C + j)) as (v & _ & ->); [lia|]. cbn [bind]. rewrite flat_cell by exact Hj. unfold cell.
  destruct (rd_some a (i * C + j)) as (u & -> & ->); [lia|]. cbn [bind obind]. reflexivity.
Qed.
Lemma sub_a_left R C (a b : list T) : valid c R C a -> valid c R C b ->
  cwp (sub_inplace_a_cr c N R C a b) (fun _ => True) (left_down R C (fun i j old => obind (cell C b i j) (fun u => o_sub N old u)) a).
Proof.
  intros Ha Hb. pose proof (valid_bound _ _ _ _ Ha). pose proof (valid_bound _ _ _ _ Hb). unfold sub_inplace_a_cr, m_len. rewrite umul_ok by lia. cbn [calc].
  apply down_left; [lia|]. intros p s Hp Hs. f_equal. destruct (idx_split_lt p R C Hp) as (i & j & -> & Hi & Hj). unfold fill_body.
  destruct (rd_some s (i * C + j)) as (v & _ & ->); [lia|]. cbn [bind]. rewrite flat_cell by exact Hj. unfold cell.
  destruct (rd_some b (i * C + j)) as (u & -> & ->); [lia|]. cbn [bind obind]. reflexivity.
Qed.
(** copying does not compute: it cannot panic *)
Lemma copy_to_returns R C (a b : list T) : 1 <= R -> 1 <= C -> valid c R C a -> valid c R C b -> cwp (copy_to_cr c R C a b) (fun _ => True) (fun _ _ => False).
Proof.
  intros HR HC Ha Hb. pose proof (er_copy_to c R C a b) as E. pose proof (copy_to_cellwise c R C a b HR HC Ha Hb) as W. rewrite <- E in W. destruct (copy_to_cr c R C a b); cbn in *; [trivial|].
  destruct W as (_ & i & j & v & Hi & Hj & _ & Hn). destruct (cell_some c R C a i j Ha Hi Hj) as (w & Hw & _). congruence.
Qed.

(** matrix times vector, added to what was there: from the first element on *)
Lemma rowvector_left (st : T -> T -> option T) store M K (a x cm : list T) : (forall o t, store o t = of_opt (st o t)) -> 1 <= K ->
  valid c M K a -> valid c K 1 x -> valid c M 1 cm ->
  cwp (gen_mult_rowvector_cr c N store M K a x cm) (fun _ => True)
    (left_up M 1 (fun i _ old => obind (dot1 N K (fun k => cell K a i k) (fun k => cell 1 x k 0)) (fun t => st old t)) cm).
Proof.
  intros Hst HK Ha Hx Hc.
  set (f := fun i (_ : nat) old => obind (dot1 N K (fun k => cell K a i k) (fun k => cell 1 x k 0)) (fun t => st old t)).
  unfold gen_mult_rowvector_cr.
  destruct (valid_cell c K 1 x 0 0 Hx ltac:(lia) ltac:(lia)) as [Hx0 _]. destruct (rd_some x 0) as (b0 & Hb0 & ->); [lia|]. cbn [calc].
  apply cwp_cmap. eapply cwp_mono; [apply (cwp_range 0 M (0, cm) _ (fun i s => fst s = i * K /\ fill_inv (fun p => p < i) (flat 1 f) cm (snd s)) (fun s p => left_up M 1 f cm (snd s) p))|auto|auto].
  - lia.
  - split; [reflexivity|]. eapply fill_inv_ext; [|apply fill_inv_start]. cbn; lia.
  - intros i [ia s] Hi [Hia Hinv]. cbn [fst snd] in Hia, Hinv. subst ia. pose proof (proj1 Hinv) as Hs. pose proof (proj1 Hc) as HL. rewrite Nat.mul_1_r in HL. 
    apply cwp_lastly.
    match goal with |- wp ?m _ _ => replace m with (bind (fill_body (flat 1 f) i s) (fun s' => Ok (S i * K, s'))) end.
    + apply wp_bind. eapply wp_mono; [eapply (fill_step _ (fun p => p < S i) _ _ _ i (fun p => p = NumPanic /\ exists v, nth_error cm i = Some v /\ flat 1 f i v = None)); [| | |exact Hinv|]| |].
      * lia.
      * cbn; lia.
      * cbn; lia.
      * intros v Hv Hf. split; [reflexivity|]. exists v. auto.
      * intros s' Hs'. cbn [wp fst snd]. split; [reflexivity|exact Hs'].
      * intros p (-> & v & Hv & Hf). cbn [snd]. apply (fill_left_up M 1 f cm s i v); [lia|lia|exact Hinv|exact Hv|exact Hf].
    + symmetry. destruct (valid_cell c M 1 cm i 0 Hc ltac:(lia) ltac:(lia)) as [Hlt Hlt2].
      unfold fill_body. destruct (rd_some s i) as (v & Hv & Hrv); [lia|]. rewrite Hrv. cbn [bind].
      replace (flat 1 f i v) with (f i 0 v) by (rewrite <- (flat_cell 1 f i 0 v) by lia; f_equal; lia).
      unfold f. rewrite of_opt_obind. destruct K as [|K']; [lia|]. rewrite dot1_loop.
      destruct (valid_cell c M (S K') a i 0 Ha ltac:(lia) ltac:(lia)) as [Ha0 Ha02].
      replace (i * S K') with (i * S K' + 0) at 1 by lia.
      rewrite (rd_of_opt a) by lia. fold (cell (S K') a i 0).
      rewrite ?bind_assoc. apply bind_ext; intros u _.
      change (cell 1 x 0 0) with (nth_error x 0). rewrite Hb0. cbn [of_opt bind].
      rewrite ?bind_assoc. apply bind_ext; intros t0 _.
      rewrite uadd_ok by lia. cbn [bind].
      replace (i * S K' + 1) with (1 + i * S K') by lia.
      erewrite (for_range_sim (fun k t => (k + i * S K', t)) 1 (S K') t0 _
          (fun k acc => u <- of_opt (cell (S K') a i k) ;; v <- of_opt (cell 1 x k 0) ;; p <- n_mul N u v ;; n_add N acc p)
          (fun _ _ => True)); [|lia|trivial|].
      2:{ intros k t Hk _. split; [|destruct (bind _ _); exact I].
            destruct (valid_cell c M (S K') a i k Ha ltac:(lia) ltac:(lia)) as [Hla Hla2].
            destruct (valid_cell c (S K') 1 x k 0 Hx ltac:(lia) ltac:(lia)) as [Hlb Hlb2].
            rewrite (Nat.add_comm k (i * S K')), (rd_of_opt a) by lia. fold (cell (S K') a i k).
            rewrite bind_assoc. apply bind_ext; intros u' _.
            replace (rd x k) with (of_opt (cell 1 x k 0)) by (unfold cell; rewrite <- rd_of_opt by lia; f_equal; lia).
            rewrite ?bind_assoc. apply bind_ext; intros w _.
            rewrite ?bind_assoc. apply bind_ext; intros p _.
            apply bind_ext; intros t' _.
            rewrite uadd_ok by lia. cbn [bind]. f_equal; f_equal; lia. }
      rewrite ?bind_assoc. apply bind_ext; intros t _. cbn [bind].
      rewrite ?Hrv. cbn [bind]. rewrite Hst. rewrite ?bind_assoc. apply bind_ext; intros w _.
      rewrite wr_ok by lia. cbn [bind]. f_equal; f_equal; lia.
Qed.

(** product with a transposed matrix: row by row, from the first element on *)
Lemma transb_left (st : T -> T -> option T) store M K U (a b cm : list T) : (forall o t, store o t = of_opt (st o t)) ->
  valid c M K a -> valid c U K b -> valid c M U cm ->
  cwp (gen_mult_transb_cr c N store M K U a b cm) (fun _ => True)
    (left_up M U (fun i j old => obind (dot N K (fun k => cell K a i k) (fun k => cell K b j k)) (fun t => st old t)) cm).
Proof.
  intros Hst Ha Hb Hc.
  set (f := fun i j old => obind (dot N K (fun k => cell K a i k) (fun k => cell K b j k)) (fun t => st old t)).
  pose proof (valid_bound _ _ _ _ Ha) as HBa. pose proof (valid_bound _ _ _ _ Hb) as HBb. pose proof (valid_bound _ _ _ _ Hc) as HBc.
  unfold gen_mult_transb_cr. apply cwp_cmap.
  eapply cwp_mono; [apply (cwp_range 0 M (0, 0, cm) _ (fun i s => fst (fst s) = i * U /\ snd (fst s) = i * K /\ fill_inv (fun p => p < i * U) (flat U f) cm (snd s)) (fun s p => left_up M U f cm (snd s) p))|auto|auto].
  - lia.
  - split; [reflexivity|]. split; [reflexivity|]. eapply fill_inv_ext; [|apply fill_inv_start]. cbn; lia.
  - intros i [[ci ai] s] Hi (Hci & Hai & Hinv). cbn [fst snd] in Hci, Hai, Hinv. subst ci ai.
    assert (HiK : i * K + K <= M * K) by nia. rewrite uadd_ok by lia. cbn [calc]. apply cwp_within.
    eapply cwp_mono; [apply (cwp_range 0 U (i * U, 0, s) _ (fun j s => fst (fst s) = i * U + j /\ snd (fst s) = j * K /\ fill_inv (fun p => p < i * U + j) (flat U f) cm (snd s)) (fun s p => left_up M U f cm (snd s) p))| |].
    + lia.
    + cbn [fst snd]. split; [lia|]. split; [reflexivity|]. eapply fill_inv_ext; [|exact Hinv]. cbn; lia.
    + intros j [[ci' ib] s'] Hj (Hci & Hib & Hinv'). cbn [fst snd] in Hci, Hib, Hinv'. subst ci' ib. pose proof (proj1 Hinv') as Hs'.
      destruct (valid_cell c M U cm i j Hc ltac:(lia) ltac:(lia)) as [Hlt Hlt2].
      replace (i * K) with (0 + i * K) at 2 by lia. replace (j * K) with (0 + j * K) at 1 by lia.
      change (0 + i * K, 0 + j * K, n_zero N) with ((fun k (t : T) => (k + i * K, k + j * K, t)) 0 (n_zero N)).
      match goal with |- cwp (calc _ ?m _) _ _ => assert (Ew : m = bind (of_opt (dot N K (fun k => cell K a i k) (fun k => cell K b j k))) (fun t => Ok (K + i * K, K + j * K, t))) end.
      { rewrite dot_loop. erewrite (while_for (fun k t => (k + i * K, k + j * K, t)) 0 K (S K) (n_zero N) _ _
         (fun k acc => u <- of_opt (cell K a i k) ;; v <- of_opt (cell K b j k) ;; p <- n_mul N u v ;; n_add N acc p)); [reflexivity|lia|lia| |].
        * intros t. apply Nat.ltb_ge. lia.
        * intros k t Hk. split; [apply Nat.ltb_lt; lia|].
          destruct (valid_cell c M K a i k Ha ltac:(lia) ltac:(lia)) as [Hla Hla2].
          destruct (valid_cell c U K b j k Hb ltac:(lia) ltac:(lia)) as [Hlb Hlb2].
          rewrite (Nat.add_comm k (i * K)), (rd_of_opt a) by lia. fold (cell K a i k).
          rewrite ?bind_assoc. apply bind_ext; intros u' _.
          rewrite (Nat.add_comm k (j * K)), (rd_of_opt b) by lia. fold (cell K b j k).
          rewrite ?bind_assoc. apply bind_ext; intros w _.
          rewrite ?bind_assoc. apply bind_ext; intros p _.
          apply bind_ext; intros t' _.
          rewrite uadd_ok by lia. cbn [bind]. rewrite uadd_ok by lia. cbn [bind]. f_equal; f_equal; f_equal; lia. }
      rewrite Ew. clear Ew.
      destruct (rd_some cm (i * U + j)) as (v & Hv & _); [lia|].
      assert (Hvs : nth_error s' (i * U + j) = Some v) by (rewrite (proj2 (proj2 Hinv')); [exact Hv|cbn; lia]).
      assert (HE : f i j v = None -> left_up M U f cm s' NumPanic).
      { intros Hf. apply (fill_left_up M U f cm s' (i * U + j) v); [lia|apply idx_lt; lia|exact Hinv'|exact Hv|rewrite flat_cell by lia; exact Hf]. }
      destruct (dot N K _ _) as [t|] eqn:Ed; cbn [of_opt bind calc]; [|cbn [cwp snd]; apply HE; unfold f; rewrite Ed; reflexivity].
      rewrite (rd_ok _ _ _ Hvs). cbn [bind]. rewrite Hst. destruct (st v t) as [w|] eqn:Es; cbn [of_opt bind calc]; [|cbn [cwp snd]; apply HE; unfold f; rewrite Ed; exact Es].
      rewrite wr_ok by lia. cbn [calc]. rewrite uadd_ok by lia. cbn [calc cwp fst snd]. split; [lia|]. split; [lia|].
      assert (W : wp (fill_body (flat U f) (i * U + j) s') (fill_inv (fun p => p < i * U + S j) (flat U f) cm) (fun _ => True)).
      { eapply fill_step; [| | |exact Hinv'|]; [lia|cbn; lia|cbn; lia|trivial]. }
      unfold fill_body in W. rewrite (rd_ok _ _ _ Hvs) in W. cbn [bind] in W. rewrite flat_cell in W by lia. unfold f in W at 1. rewrite Ed in W. cbn [obind] in W. rewrite Es in W.
      cbn [of_opt bind] in W. rewrite wr_ok in W by lia. exact W.
    + intros [[ci ib] s'] (Hci & Hib & Hinv'). cbn [fst snd] in *. cbn [calc cwp fst snd]. split; [lia|]. split; [lia|].
      eapply fill_inv_ext; [|exact Hinv']. cbn; lia.
    + intros [[ci ib] s'] p H. exact H.
Qed.
End Torn.
