(** * What a matrix operation leaves behind when it panics *)
From Coq Require Import Lia.
From Verif Require Import Spec SpecBits Matrix Filter Wp Kernels Access Chol BitsProof Crash CrashErase SpecCrash CrashKernels CrashTorn CrashMatrix SpecTorn.

Section Mat.
Context {T : Type} (c : cfg) (N : num T).

(** ** from the loops of CrashTorn.v *)
Lemma torn_up_rows R C k (b a x : nat -> nat -> option T) : torn_up R C k b a x -> torn by_rows R C b a x.
Proof.
  intros [Hk H]. destruct (idx_split_lt k R C Hk) as (p & q & -> & Hp & Hq). exists p, q. split; [exact Hp|]. split; [exact Hq|]. split; [apply (H p q Hp Hq); reflexivity|].
  intros i j Hi Hj. destruct (H i j Hi Hj) as [-> _]. unfold by_rows. destruct (Nat.ltb_spec (i * C + j) (p * C + q)); split; intros; try reflexivity; exfalso; nia.
Qed.
Lemma torn_down_rows R C k (b a x : nat -> nat -> option T) : torn_down R C k b a x -> torn backwards R C b a x.
Proof.
  intros [Hk H]. destruct (idx_split_lt k R C Hk) as (p & q & -> & Hp & Hq). exists p, q. split; [exact Hp|]. split; [exact Hq|]. split; [apply (H p q Hp Hq); reflexivity|].
  intros i j Hi Hj. destruct (H i j Hi Hj) as [-> _]. unfold backwards. destruct (Nat.ltb_spec (p * C + q) (i * C + j)); split; intros; try reflexivity; exfalso; nia.
Qed.
Lemma torn_ext first R C (b a a' x : nat -> nat -> option T) : (forall i j, i < R -> j < C -> a i j = a' i j) -> torn first R C b a x -> torn first R C b a' x.
Proof.
  intros H (p & q & Hp & Hq & E & G). exists p, q. split; [exact Hp|]. split; [exact Hq|]. split; [rewrite <- H; assumption|]. intros i j Hi Hj. destruct (G i j Hi Hj) as [G1 G2].
  split; [|exact G2]. intros F. rewrite <- H by assumption. auto.
Qed.

(** the returning half, from the account of the kernel that forgets *)
Lemma returned first R C (old : list T) f (after : nat -> nat -> option T) (m : cr (list T)) r :
  valid c R C old -> erase m = r -> cellwise R C old f r -> (forall i j v, i < R -> j < C -> cell C old i j = Some v -> f i j v = after i j) ->
  cwp m (fun _ => True) (fun s p => p = NumPanic /\ same_tail R C old s /\ torn first R C (cell C old) after (cell C s)) -> left_by first R C old after m.
Proof.
  intros V <- W H P. destruct m as [s|s p]; cbn [erase cwp left_by] in *; [|exact P]. destruct (cellwise_out c R C old f _ s V W eq_refl) as (Vs & S & D). split; [exact S|].
  intros i j Hi Hj. destruct (D i j Hi Hj) as (v & Hv & E). rewrite H in E by assumption. split; [exact E|]. destruct (cell_some c R C s i j Vs Hi Hj) as (w & Hw & _). congruence.
Qed.
Lemma from_up R C f (old : list T) (after : nat -> nat -> option T) m : valid c R C old -> (forall i j v, i < R -> j < C -> cell C old i j = Some v -> f i j v = after i j) ->
  cwp m (fun _ => True) (left_up R C f old) -> cwp m (fun _ => True) (fun s p => p = NumPanic /\ same_tail R C old s /\ torn by_rows R C (cell C old) after (cell C s)).
Proof.
  intros V H W. eapply cwp_mono; [exact W|auto|]. intros s p (-> & S & k & TU). split; [reflexivity|]. split; [exact S|]. eapply torn_ext; [|eapply torn_up_rows, TU].
  intros i j Hi Hj. cbv beta. destruct (cell_some c R C old i j V Hi Hj) as (v & Hv & _). rewrite Hv. cbn [obind]. apply H; assumption.
Qed.
Lemma from_down R C f (old : list T) (after : nat -> nat -> option T) m : valid c R C old -> (forall i j v, i < R -> j < C -> cell C old i j = Some v -> f i j v = after i j) ->
  cwp m (fun _ => True) (left_down R C f old) -> cwp m (fun _ => True) (fun s p => p = NumPanic /\ same_tail R C old s /\ torn backwards R C (cell C old) after (cell C s)).
Proof.
  intros V H W. eapply cwp_mono; [exact W|auto|]. intros s p (-> & S & k & TU). split; [reflexivity|]. split; [exact S|]. eapply torn_ext; [|eapply torn_down_rows, TU].
  intros i j Hi Hj. cbv beta. destruct (cell_some c R C old i j V Hi Hj) as (v & Hv & _). rewrite Hv. cbn [obind]. apply H; assumption.
Qed.

(** ** products with a vector or a transposed matrix *)
Lemma rowvector_torn M K (a x cm : list T) : 1 <= K -> valid c M K a -> valid c K 1 x -> valid c M 1 cm ->
  left_by by_rows M 1 cm (b_prodv N K (cell K a) (cell 1 x)) (mult_rowvector_cr c N M K a x cm).
Proof.
  intros HK Va Vx Vc. eapply (returned _ M 1 cm); [exact Vc|apply er_gen_mult_rowvector|apply (gen_mult_rowvector_cellwise c N (fun _ t => Some t)); auto| |].
  - intros i j v Hi Hj Hv. unfold b_prodv. destruct (dot1 _ _ _ _); reflexivity.
  - eapply from_up; [exact Vc| |apply (rowvector_left c N (fun _ t => Some t)); auto]. intros i j v Hi Hj Hv. unfold b_prodv. destruct (dot1 _ _ _ _); reflexivity.
Qed.
Lemma add_rowvector_torn M K (a x cm : list T) : 1 <= K -> valid c M K a -> valid c K 1 x -> valid c M 1 cm ->
  left_by by_rows M 1 cm (fun i j => b_add N (cell 1 cm i j) (b_prodv N K (cell K a) (cell 1 x) i j)) (multadd_rowvector_cr c N M K a x cm).
Proof.
  intros HK Va Vx Vc. eapply (returned _ M 1 cm); [exact Vc|apply er_gen_mult_rowvector|apply (gen_mult_rowvector_cellwise c N (fun o t => o_add N o t)); auto| |].
  - intros i j v Hi Hj Hv. rewrite Hv. reflexivity.
  - eapply from_up; [exact Vc| |apply (rowvector_left c N (fun o t => o_add N o t)); auto]. intros i j v Hi Hj Hv. rewrite Hv. reflexivity.
Qed.
Lemma transb_torn M K U (a b cm : list T) : valid c M K a -> valid c U K b -> valid c M U cm ->
  left_by by_rows M U cm (b_prodt N K (cell K a) (cell K b)) (mult_transb_cr c N M K U a b cm).
Proof.
  intros Va Vb Vc. eapply (returned _ M U cm); [exact Vc|apply er_gen_mult_transb|apply (gen_mult_transb_cellwise c N (fun _ t => Some t)); auto| |].
  - intros i j v Hi Hj Hv. unfold b_prodt. destruct (dot _ _ _ _); reflexivity.
  - eapply from_up; [exact Vc| |apply (transb_left c N (fun _ t => Some t)); auto]. intros i j v Hi Hj Hv. unfold b_prodt. destruct (dot _ _ _ _); reflexivity.
Qed.
Lemma add_transb_torn M K U (a b cm : list T) : valid c M K a -> valid c U K b -> valid c M U cm ->
  left_by by_rows M U cm (fun i j => b_add N (cell U cm i j) (b_prodt N K (cell K a) (cell K b) i j)) (multadd_transb_cr c N M K U a b cm).
Proof.
  intros Va Vb Vc. eapply (returned _ M U cm); [exact Vc|apply er_gen_mult_transb|apply (gen_mult_transb_cellwise c N (fun o t => o_add N o t)); auto| |].
  - intros i j v Hi Hj Hv. rewrite Hv. reflexivity.
  - eapply from_up; [exact Vc| |apply (transb_left c N (fun o t => o_add N o t)); auto]. intros i j v Hi Hj Hv. rewrite Hv. reflexivity.
Qed.
Lemma scale_transb_torn s M K U (a b cm : list T) : valid c M K a -> valid c U K b -> valid c M U cm ->
  left_by by_rows M U cm (fun i j => b_mul N (b_prodt N K (cell K a) (cell K b) i j) (Some s)) (multscale_transb_cr c N s M K U a b cm).
Proof.
  intros Va Vb Vc. eapply (returned _ M U cm); [exact Vc|apply er_gen_mult_transb|apply (gen_mult_transb_cellwise c N (fun _ t => o_mul N t s)); auto| |].
  - intros i j v Hi Hj Hv. reflexivity.
  - eapply from_up; [exact Vc| |apply (transb_left c N (fun _ t => o_mul N t s)); auto]. intros i j v Hi Hj Hv. reflexivity.
Qed.

(** ** element by element *)
Ltac ew_down := unfold m_len; rewrite umul_ok by lia; cbn [calc]; apply down_left; [lia|]; intros p s Hp Hs; f_equal; destruct (idx_split_lt p _ _ Hp) as (i & j & -> & Hi & Hj); unfold fill_body.
Lemma add_a_left R C (a b : list T) : valid c R C a -> valid c R C b ->
  cwp (add_inplace_a_cr c N R C a b) (fun _ => True) (left_down R C (fun i j old => obind (cell C b i j) (fun u => o_add N old u)) a).
Proof.
  intros Ha Hb. pose proof (valid_bound _ _ _ _ Ha). pose proof (valid_bound _ _ _ _ Hb). unfold add_inplace_a_cr. ew_down.
  destruct (rd_some s (i * C + j)) as (v & _ & ->); [lia|]. cbn [bind]. rewrite flat_cell by exact Hj. unfold cell. destruct (rd_some b (i * C + j)) as (u & -> & ->); [lia|]. reflexivity.
Qed.
Lemma sub_b_left R C (a b : list T) : valid c R C a -> valid c R C b ->
  cwp (sub_inplace_b_cr c N R C a b) (fun _ => True) (left_down R C (fun i j old => obind (cell C a i j) (fun u => o_sub N u old)) b).
Proof.
  intros Ha Hb. pose proof (valid_bound _ _ _ _ Ha). pose proof (valid_bound _ _ _ _ Hb). unfold sub_inplace_b_cr. ew_down.
  destruct (rd_some s (i * C + j)) as (v & _ & ->); [lia|]. cbn [bind]. rewrite flat_cell by exact Hj. unfold cell. destruct (rd_some a (i * C + j)) as (u & -> & ->); [lia|]. reflexivity.
Qed.
Lemma m_sub_left R C (a b cm : list T) : valid c R C a -> valid c R C b -> valid c R C cm ->
  cwp (m_sub_cr c N R C a b cm) (fun _ => True) (left_down R C (fun i j _ => obind (cell C a i j) (fun u => obind (cell C b i j) (fun v => o_sub N u v))) cm).
Proof.
  intros Ha Hb Hc. pose proof (valid_bound _ _ _ _ Ha). pose proof (valid_bound _ _ _ _ Hb). pose proof (valid_bound _ _ _ _ Hc). unfold m_sub_cr. ew_down.
  destruct (rd_some s (i * C + j)) as (v & _ & ->); [lia|]. cbn [bind]. rewrite flat_cell by exact Hj. unfold cell.
  destruct (rd_some a (i * C + j)) as (u & -> & ->); [lia|]. destruct (rd_some b (i * C + j)) as (w & -> & ->); [lia|]. reflexivity.
Qed.
Lemma er_m_sub R C (a b cm : list T) : erase (m_sub_cr c N R C a b cm) = m_sub c N R C a b cm.
Proof. unfold m_sub_cr, m_sub. er. Qed.

Lemma add_a_torn R C (a b : list T) : valid c R C a -> valid c R C b ->
  left_by backwards R C a (fun i j => b_add N (cell C a i j) (cell C b i j)) (add_inplace_a_cr c N R C a b).
Proof.
  intros Ha Hb. assert (H : forall i j v, i < R -> j < C -> cell C a i j = Some v -> obind (cell C b i j) (fun u => o_add N v u) = b_add N (cell C a i j) (cell C b i j)).
  { intros i j v _ _ Hv. rewrite Hv. reflexivity. }
  eapply (returned _ R C a); [exact Ha|apply er_add_inplace_a|apply add_inplace_a_cellwise; assumption|exact H|]. eapply from_down; [exact Ha|exact H|apply add_a_left; assumption].
Qed.
Lemma sub_a_torn R C (a b : list T) : valid c R C a -> valid c R C b ->
  left_by backwards R C a (fun i j => b_sub N (cell C a i j) (cell C b i j)) (sub_inplace_a_cr c N R C a b).
Proof.
  intros Ha Hb. assert (H : forall i j v, i < R -> j < C -> cell C a i j = Some v -> obind (cell C b i j) (fun u => o_sub N v u) = b_sub N (cell C a i j) (cell C b i j)).
  { intros i j v _ _ Hv. rewrite Hv. reflexivity. }
  eapply (returned _ R C a); [exact Ha|apply er_sub_inplace_a|apply sub_inplace_a_cellwise; assumption|exact H|]. eapply from_down; [exact Ha|exact H|apply sub_a_left; assumption].
Qed.
Lemma add_b_torn R C (a b : list T) : valid c R C a -> valid c R C b ->
  left_by backwards R C b (fun i j => b_add N (cell C b i j) (cell C a i j)) (add_inplace_b_cr c N R C a b).
Proof.
  intros Ha Hb. assert (H : forall i j v, i < R -> j < C -> cell C b i j = Some v -> obind (cell C a i j) (fun u => o_add N v u) = b_add N (cell C b i j) (cell C a i j)).
  { intros i j v _ _ Hv. rewrite Hv. reflexivity. }
  eapply (returned _ R C b); [exact Hb|apply er_add_inplace_b|apply add_inplace_b_cellwise; assumption|exact H|]. eapply from_down; [exact Hb|exact H|apply add_b_left; assumption].
Qed.
Lemma sub_b_torn R C (a b : list T) : valid c R C a -> valid c R C b ->
  left_by backwards R C b (fun i j => b_sub N (cell C a i j) (cell C b i j)) (sub_inplace_b_cr c N R C a b).
Proof.
  intros Ha Hb. assert (H : forall i j v, i < R -> j < C -> cell C b i j = Some v -> obind (cell C a i j) (fun u => o_sub N u v) = b_sub N (cell C a i j) (cell C b i j)).
  { intros i j v _ _ Hv. rewrite Hv. reflexivity. }
  eapply (returned _ R C b); [exact Hb|apply er_sub_inplace_b|apply sub_inplace_b_cellwise; assumption|exact H|]. eapply from_down; [exact Hb|exact H|apply sub_b_left; assumption].
Qed.
Lemma m_sub_torn R C (a b cm : list T) : valid c R C a -> valid c R C b -> valid c R C cm ->
  left_by backwards R C cm (fun i j => b_sub N (cell C a i j) (cell C b i j)) (m_sub_cr c N R C a b cm).
Proof.
  intros Ha Hb Hc. assert (H : forall i j v, i < R -> j < C -> cell C cm i j = Some v -> obind (cell C a i j) (fun u => obind (cell C b i j) (fun w => o_sub N u w)) = b_sub N (cell C a i j) (cell C b i j)) by reflexivity.
  eapply (returned _ R C cm); [exact Hc|apply er_m_sub|apply m_sub_cellwise; assumption|exact H|]. eapply from_down; [exact Hc|exact H|apply m_sub_left; assumption].
Qed.

(** ** the product: column by column, from the last *)
Definition left_cols (R C : nat) (f : nat -> T -> option T) (old s : list T) (p : panic) : Prop :=
  p = NumPanic /\ same_tail R C old s /\ exists q r v, q < C /\ r < R /\ nth_error old (r * C + q) = Some v /\ f (r * C + q) v = None /\
    fill_inv (fun p => exists i j, p = i * C + j /\ i < R /\ j < C /\ (q < j \/ (j = q /\ i < r))) f old s.
Lemma cols_left {S} (get : S -> list T) (f : nat -> T -> option T) (old : list T) R C (s0 : S) body (Inv0 : S -> Prop) : R * C <= length old -> get s0 = old -> Inv0 s0 ->
  (forall j s, j < C -> length (get s) = length old -> Inv0 s -> exists s2 post, get s2 = get s /\ Inv0 s2 /\
     (forall l, get (post l) = l /\ Inv0 (post l)) /\ body j s = cmap post (cfor_range 0 R (get s2) (fun i s => lastly s (fill_body f (i * C + j) s)))) ->
  cwp (cfor_down C s0 body) (fun _ => True) (fun s p => left_cols R C f old (get s) p).
Proof.
  intros HL H0 I0 Hb. set (E := fun (s : list T) p => left_cols R C f old s p).
  eapply cwp_mono; [apply (cwp_down C s0 body (fun k s => Inv0 s /\ fill_inv (fun p => exists i j, p = i * C + j /\ i < R /\ k <= j < C) f old (get s)) (fun s p => E (get s) p))|auto|auto].
  - split; [exact I0|]. rewrite H0. eapply fill_inv_ext; [|apply fill_inv_start]. intros p; split; [intros []|intros (i & j & _ & _ & ?); lia].
  - intros j s Hj [Is Hinv]. destruct (Hb j s Hj (proj1 Hinv) Is) as (s2 & post & G2 & I2 & HP & ->). apply cwp_cmap. rewrite G2.
    eapply cwp_mono; [apply (cwp_range 0 R (get s) _ (fun k => fill_inv (fun p => exists i' j', p = i' * C + j' /\ i' < R /\ j' < C /\ (j < j' \/ (j' = j /\ i' < k))) f old) E)| |].
    + lia.
    + eapply fill_inv_ext; [|exact Hinv]. intros p; split.
      * intros (i & j' & -> & ? & ?). exists i, j'; repeat split; auto; lia.
      * intros (i & j' & -> & ? & ? & [?|[? ?]]); [exists i, j'; repeat split; auto; lia|lia].
    + intros i s' Hi Hinv'. apply cwp_lastly. assert (i * C + j < R * C) by (apply idx_lt; lia).
      eapply (wp_mono (fill_body f (i * C + j) s') _ _ (fun p => p = NumPanic /\ exists v, nth_error old (i * C + j) = Some v /\ f (i * C + j) v = None)); [|intros a Ha; exact Ha|].
      * eapply fill_step; [| | |exact Hinv'|].
        -- lia.
        -- intros (i' & j' & Heq & ? & ? & Hor). apply idx_inj in Heq; [|lia|lia]. lia.
        -- intros q; split.
           ++ intros (i' & j' & -> & ? & ? & Hor).
              destruct (Nat.eq_dec j' j) as [->|]; [destruct (Nat.eq_dec i' i) as [->|]|].
              ** right; auto.
              ** left. exists i', j; repeat split; auto; lia.
              ** left. exists i', j'; repeat split; auto; lia.
           ++ intros [(i' & j' & -> & ? & ? & Hor)| ->].
              ** exists i', j'; repeat split; auto; lia.
              ** exists i, j; repeat split; auto; lia.
        -- intros v Hv Hf. split; [reflexivity|]. exists v. auto.
      * intros p (-> & v & Hv & Hf). split; [reflexivity|]. split.
        -- destruct Hinv' as (L1 & L2 & L3). split; [exact L1|]. intros p Hp. apply L3. intros (i' & j' & -> & ? & ? & _). pose proof (idx_lt i' j' R C). lia.
        -- exists j, i, v. split; [lia|]. split; [lia|]. split; [exact Hv|]. split; [exact Hf|exact Hinv'].
    + intros l Hl. destruct (HP l) as [-> Il]. split; [exact Il|]. eapply fill_inv_ext; [|exact Hl]. intros p; split.
      * intros (i' & j' & -> & ? & ? & Hor). exists i', j'; repeat split; auto; lia.
      * intros (i' & j' & -> & ? & ?). exists i', j'; repeat split; auto; lia.
    + intros l p Hl. destruct (HP l) as [-> _]. exact Hl.
Qed.
Lemma left_cols_torn R C (g : nat -> nat -> option T) (old s : list T) p : R * C <= length old ->
  left_cols R C (fun p _ => g (p / C) (p mod C)) old s p -> p = NumPanic /\ same_tail R C old s /\ torn by_columns R C (cell C old) g (cell C s).
Proof.
  intros HL (-> & S & q & r & v & Hq & Hr & Hv & Hf & (L1 & L2 & L3)). split; [reflexivity|]. split; [exact S|].
  assert (Hdm : forall i j, j < C -> g ((i * C + j) / C) ((i * C + j) mod C) = g i j).
  { intros i j Hj. rewrite Nat.div_add_l, Nat.div_small by lia. rewrite Nat.add_0_r. f_equal. rewrite Nat.add_comm, Nat.mod_add, Nat.mod_small by lia. reflexivity. }
  exists r, q. split; [exact Hr|]. split; [exact Hq|]. split; [rewrite <- (Hdm r q Hq); exact Hf|]. intros i j Hi Hj. unfold by_columns. pose proof (idx_lt i j R C Hi Hj). split; intros F.
  - destruct (rd_some old (i * C + j)) as (w & Hw & _); [lia|]. unfold cell. rewrite (L2 _ w); [apply Hdm, Hj| |exact Hw]. exists i, j. auto.
  - unfold cell. apply L3. intros (i' & j' & Heq & ? & ? & Hor). apply idx_inj in Heq; [|lia|lia]. destruct Heq; subst. auto.
Qed.

Lemma pair_up K L (b : nat -> nat * list T -> cr (nat * list T)) fb : forall cnt lo (s : list T) hi, lo + cnt = hi -> length s = L ->
  (forall i s', i < hi -> length s' = L -> b i (i * K, s') = lastly (i * K, s') (bind (fb i s') (fun s2 => Ok (S i * K, s2))) /\ wp (fb i s') (fun s2 => length s2 = L) (fun _ => True)) ->
  cmap snd (cfor_up cnt lo (lo * K, s) b) = cfor_up cnt lo s (fun i s => lastly s (fb i s)).
Proof.
  induction cnt as [|cnt IH]; intros lo s hi Hh Hs H; cbn [cfor_up]; [reflexivity|].
  destruct (H lo s ltac:(lia) Hs) as [-> W]. destruct (fb lo s) as [s2|p]; cbn in *; [|reflexivity]. apply (IH (S lo) s2 hi); [lia|exact W|exact H].
Qed.
Lemma prod_body {X} M K U (a b cm : list T) (bv : nat -> option T) j (post0 : list T -> X) (s : list T) inner : (forall k, k < K -> bv k = cell U b k j) -> valid c M K a -> valid c M U cm -> j < U -> length s = length cm ->
  (forall ia k t, k < K -> inner k (ia, t) = (av <- rd a ia ;; v <- of_opt (bv k) ;; p <- n_mul N av v ;; t <- n_add N t p ;; ia <- uadd c ia 1 ;; Ok (ia, t))) ->
  cmap (fun s => post0 (snd s)) (cfor_range 0 M (0, s) (fun i s => lastly s (let '(index_a, cdata) := s in
      s <- for_range 0 K (index_a, n_zero N) inner ;;
      let '(index_a, total) := s in
      ic <- umul c i U ;;
      ic <- uadd c ic j ;;
      cdata <- wr cdata ic total ;;
      Ok (index_a, cdata)))) =
  cmap post0 (cfor_range 0 M s (fun i s => lastly s (fill_body (fun p _ => b_prod N K (cell K a) (cell U b) (p / U) (p mod U)) (i * U + j) s))).
Proof.
  intros Hbv Ha Hc Hj Hs Hin. pose proof (valid_bound _ _ _ _ Ha). pose proof (valid_bound _ _ _ _ Hc).
  match goal with |- cmap _ (cfor_range 0 M (0, s) ?b) = cmap _ (cfor_range 0 M s (fun i s => lastly s (@?fb i s))) =>
    assert (E : cmap snd (cfor_range 0 M (0, s) b) = cfor_range 0 M s (fun i s => lastly s (fb i s))) end.
  2:{ rewrite <- E. destruct (cfor_range 0 M (0, s) _); reflexivity. }
  unfold cfor_range. rewrite Nat.sub_0_r. change (0, s) with (0 * K, s). apply (pair_up K (length cm) _ _ M 0 s M); [lia|exact Hs|]. intros i s' Hi Hs'.
  pose proof (idx_lt i j M U Hi Hj). split; [|apply fill_body_len; [destruct Hc; lia|exact Hs']]. f_equal.
  unfold fill_body. destruct (valid_cell c M U cm i j Hc ltac:(lia) Hj) as [Hlt Hlt2].
  destruct (rd_some s' (i * U + j)) as (v & Hv & ->); [lia|]. cbn [bind]. rewrite Nat.div_add_l, Nat.div_small by lia. rewrite Nat.add_0_r.
  replace ((i * U + j) mod U) with j by (rewrite Nat.add_comm, Nat.mod_add, Nat.mod_small by lia; reflexivity). unfold b_prod.
  rewrite <- (dot_ext N K (fun k => cell K a i k) bv (fun k => cell K a i k) (fun k => cell U b k j)) by auto. rewrite dot_loop.
  erewrite (for_range_sim (fun k t => (k + i * K, t)) 0 K (n_zero N) _
    (fun k acc => u <- of_opt (cell K a i k) ;; v <- of_opt (bv k) ;; p <- n_mul N u v ;; n_add N acc p)
    (fun _ _ => True)); [|lia|trivial|].
  2:{ intros k t Hk _. split; [|destruct (bind _ _); exact I]. rewrite Hin by lia.
      destruct (valid_cell c M K a i k Ha ltac:(lia) ltac:(lia)) as [Hla Hla2].
      rewrite (Nat.add_comm k (i * K)), (rd_of_opt a) by lia. fold (cell K a i k).
      rewrite bind_assoc. apply bind_ext; intros u _.
      rewrite ?bind_assoc. apply bind_ext; intros w _.
      rewrite ?bind_assoc. apply bind_ext; intros p _.
      apply bind_ext; intros t' _.
      rewrite uadd_ok by lia. cbn [bind]. f_equal; f_equal; lia. }
  rewrite ?bind_assoc. apply bind_ext; intros t _. cbn [bind].
  rewrite idx_ok by lia. rewrite wr_ok by lia. cbn [bind]. f_equal; f_equal; lia.
Qed.

Lemma mult_torn M K U (a b cm : list T) : valid c M K a -> valid c K U b -> valid c M U cm ->
  left_by by_columns M U cm (b_prod N K (cell K a) (cell U b)) (mult_cr c N M K U a b cm).
Proof.
  intros Ha Hb Hc. pose proof (valid_bound _ _ _ _ Ha). pose proof (valid_bound _ _ _ _ Hb). eapply (returned _ M U cm); [exact Hc|apply er_mult|apply mult_cellwise; assumption|reflexivity|].
  eapply cwp_mono; [apply (cols_left (fun s => s) (fun p _ => b_prod N K (cell K a) (cell U b) (p / U) (p mod U)) cm M U cm _ (fun _ => True)); [apply Hc|reflexivity|exact I|]|auto|].
  - intros j s Hj Hs _. exists s, (fun l => l). split; [reflexivity|]. split; [exact I|]. split; [auto|].
    apply (prod_body M K U a b cm (fun k => cell U b k j) j (fun l => l) s); auto.
    intros ia k t Hk. destruct (valid_cell c K U b k j Hb Hk Hj) as [Hlb Hlb2]. apply bind_ext; intros u _. rewrite idx_ok by lia. rewrite (rd_of_opt b) by lia. reflexivity.
  - intros s p Hl. exact (left_cols_torn M U _ cm s p (proj1 Hc) Hl).
Qed.
Lemma er_mult_buffered M K U (a b cm aux : list T) : erase (mult_buffered_cr c N M K U a b cm aux) = mult_buffered c N M K U a b cm aux.
Proof.
  unfold mult_buffered_cr, mult_buffered. rewrite erase_calc. apply bind_ext; intros _ _. apply erase_down. intros j [cd au]. rewrite erase_calc. apply bind_ext; intros au2 _.
  rewrite erase_cmap. erewrite erase_range; [|intros; apply erase_lastly]. apply bind_ext; intros [? ?] _; reflexivity.
Qed.
Lemma mult_buffered_torn M K U (a b cm aux : list T) : 1 <= K -> valid c M K a -> valid c K U b -> valid c M U cm -> aux_ok c K aux ->
  left_by by_columns M U cm (b_prod N K (cell K a) (cell U b)) (cmap fst (mult_buffered_cr c N M K U a b cm aux)).
Proof.
  intros HK Ha Hb Hc Hx. pose proof (valid_bound _ _ _ _ Ha). pose proof (valid_bound _ _ _ _ Hb).
  pose proof (mult_buffered_mult c N M K U a b cm aux HK Ha Hb Hc Hx) as R. rewrite <- er_mult_buffered in R.
  destruct Hx as [Hx Hdbg].
  eapply (returned _ M U cm (fun i j _ => b_prod N K (cell K a) (cell U b) i j) _ _ (mult c N M K U a b cm)); [exact Hc| |apply mult_cellwise; assumption|reflexivity|].
  { destruct (mult_buffered_cr _ _ _ _ _ _ _ _ _) as [[r ?]|[r ?] p]; destruct (mult c N M K U a b cm); cbn in *; try contradiction; congruence. }
  apply cwp_cmap. cbv beta. unfold mult_buffered_cr. apply cwp_calc.
  replace (dassert c (length aux =? K)) with (Ok tt).
  2:{ unfold dassert. destruct (no_assert c); [auto|]. destruct (debug_assertions c); [|auto]. destruct Hdbg as [?|[?|Hl]]; try discriminate. rewrite Hl, Nat.eqb_refl. reflexivity. }
  cbn [wp].
  eapply cwp_mono; [apply (cols_left (fun s : list T * list T => fst s) (fun p _ => b_prod N K (cell K a) (cell U b) (p / U) (p mod U)) cm M U (cm, aux) _ (fun s => valid c K 1 (snd s))); [apply Hc|reflexivity|exact Hx|]|auto|].
  - intros j [s au] Hj Hs Hv. cbn [fst snd] in *.
    pose proof (valid_bound _ _ _ _ Hv) as HBv.
    pose proof (get_column_copy_cellwise c K U b j au HK Hj Hb Hv) as Hcol.
    destruct (get_column_copy c K U b j au) as [aux2|e]; cbn [cellwise] in Hcol.
    2:{ exfalso. destruct Hcol as (_ & i & j' & v & Hi & Hj' & _ & Hn).
        destruct (cell_some c K U b i j Hb Hi Hj) as (w & Hw & _). congruence. }
    destruct Hcol as (Hl2 & Hc2 & _). cbn [calc].
    assert (Hv2 : valid c K 1 aux2).
    { destruct Hv as [Hv1 Hv2]. split; [lia|]. unfold slice_ok in *. rewrite Hl2. exact Hv2. }
    assert (Haux : forall k, k < K -> cell 1 aux2 k 0 = cell U b k j).
    { intros k Hk. destruct (cell_some c K 1 au k 0 Hv Hk ltac:(lia)) as (w & Hw & _). exact (Hc2 k 0 w Hk ltac:(lia) Hw). }
    pose proof (valid_bound _ _ _ _ Hv2).
    exists (s, aux2), (fun l => (l, aux2)). split; [reflexivity|]. split; [exact Hv2|]. split; [auto|]. cbn [fst].
    apply (prod_body M K U a b cm (fun k => cell 1 aux2 k 0) j (fun l => (l, aux2)) s); auto.
    intros ia k t Hk. apply bind_ext; intros u _. rewrite (rd_of_opt aux2) by (destruct Hv2; lia). unfold cell. replace (k * 1 + 0) with k by lia. reflexivity.
  - intros s p Hl. exact (left_cols_torn M U _ cm (fst s) p (proj1 Hc) Hl).
Qed.
End Mat.
