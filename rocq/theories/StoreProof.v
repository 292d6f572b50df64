(** * Constructors, builders, the nalgebra view, stale closure outputs *)
From Coq Require Import Lia.
From Verif Require Import Spec Matrix Storage Filter Extended Builder SpecFilter History SpecGen SpecStore Wp Kernels Access FilterGen HistGen
  BuildSim FloatNum SpecFloats FloatWit FloatGen ExampleData.

Section Constructors.
Context {T : Type} (c : cfg).

Lemma checked_new R C (data : list T) : no_assert c = false -> R * C <= usize_max c ->
  boxed_new c R C data = (if length data =? R * C then Ok data else Panic AssertFailed) /\
  array_new c R C data = (if length data =? R * C then Ok data else Panic AssertFailed).
Proof.
  intros Hn Hs. unfold boxed_new, array_new. rewrite Hn, umul_ok by exact Hs. cbn [bind].
  rewrite (Nat.eqb_sym (R * C)). destruct (length data =? R * C); split; reflexivity.
Qed.
Lemma checked_new_valid R C (data m : list T) : no_assert c = false -> overflow_checks c = true -> slice_ok c data ->
  boxed_new c R C data = Ok m \/ array_new c R C data = Ok m -> m = data /\ length m = R * C /\ valid c R C m.
Proof.
  intros Hn Ho Hd H. assert (E : boxed_new c R C data = Ok m) by (destruct H; auto). clear H.
  unfold boxed_new in E. rewrite Hn in E. unfold umul in E. rewrite Ho in E.
  destruct (R * C <=? usize_max c); cbn [bind] in E; [|discriminate].
  destruct (R * C =? length data) eqn:El; cbn in E; [|discriminate]. injection E as <-. apply Nat.eqb_eq in El.
  repeat split; [lia|lia|exact Hd].
Qed.
Lemma wrapper_from R C (data : list T) : no_assert c = false -> debug_assertions c = true -> R * C <= usize_max c ->
  buffer_from c R C data = (if R * C <=? length data then Ok data else Panic AssertFailed).
Proof.
  intros Hn Hd Hs. unfold buffer_from. rewrite Hn, Hd, umul_ok by exact Hs. cbn [bind].
  destruct (R * C <=? length data); reflexivity.
Qed.
Lemma wrapper_from_valid R C (data m : list T) : no_assert c = false -> debug_assertions c = true -> overflow_checks c = true -> slice_ok c data ->
  buffer_from c R C data = Ok m -> m = data /\ valid c R C m.
Proof.
  intros Hn Hd Ho Hs E. unfold buffer_from in E. rewrite Hn, Hd in E. unfold umul in E. rewrite Ho in E.
  destruct (R * C <=? usize_max c); cbn [bind] in E; [|discriminate].
  destruct (R * C <=? length data) eqn:El; cbn in E; [|discriminate]. injection E as <-. apply Nat.leb_le in El.
  repeat split; [lia|exact Hs].
Qed.
(** release builds check the wrapped product *)
Lemma wrapped_new h : no_assert c = false -> overflow_checks c = false -> usize_max c + 1 = 2 * h -> 1 <= h ->
  boxed_new c 2 h (@nil T) = Ok [] /\ array_new c 2 h (@nil T) = Ok [] /\ ~ valid c 2 h (@nil T).
Proof.
  intros Hn Ho Hu Hh. unfold boxed_new, array_new. rewrite Hn. unfold umul.
  rewrite (proj2 (Nat.leb_gt (2 * h) (usize_max c))) by lia. rewrite Ho. replace (2 * h) with (S (usize_max c)) by lia.
  rewrite Nat.mod_same by lia. cbn. split; [reflexivity|]. split; [reflexivity|]. intros [H _]. cbn in H. lia.
Qed.
Lemma wrapped_new_ex h : no_assert c = false -> overflow_checks c = false -> usize_max c + 1 = 2 * h -> 1 <= h ->
  exists (R C : nat) (data : list T), boxed_new c R C data = Ok data /\ array_new c R C data = Ok data /\ ~ valid c R C data.
Proof. intros. exists 2, h, []. apply wrapped_new; auto. Qed.
Lemma unchecked_accept R C (data : list T) :
  array_new_unchecked R C data = Ok data /\ ref_new R C data = Ok data /\
  (debug_assertions c = false \/ no_assert c = true -> buffer_from c R C data = Ok data) /\
  (no_assert c = true -> boxed_new c R C data = Ok data /\ array_new c R C data = Ok data).
Proof.
  unfold array_new_unchecked, ref_new, buffer_from, boxed_new, array_new. split; [reflexivity|]. split; [reflexivity|]. split.
  - intros [H|H]; rewrite H; [destruct (no_assert c)|]; reflexivity.
  - intros H; rewrite H; auto.
Qed.

(** using a matrix whose slice is too short *)
Lemma get_inside C (m : list T) i j v : get_at c C m i j = Ok v -> exists p, nth_error m p = Some v.
Proof.
  unfold get_at. destruct (umul c i C) as [a|]; cbn [bind]; [|discriminate].
  destruct (uadd c a j) as [p|]; cbn [bind]; [|discriminate]. intros H. exists p. apply rd_Ok_inv, H.
Qed.
Lemma get_short R C (m : list T) i j : i < R -> j < C -> R * C <= usize_max c -> length m <= i * C + j -> get_at c C m i j = Panic IndexOOB.
Proof.
  intros Hi Hj Hs Hl. pose proof (idx_lt i j R C Hi Hj). unfold get_at. rewrite idx_ok by lia.
  unfold rd. rewrite (proj2 (nth_error_None m _)) by lia. reflexivity.
Qed.
Lemma set_short R C (m : list T) i j v : i < R -> j < C -> R * C <= usize_max c -> length m <= i * C + j -> set_at c C m i j v = Panic IndexOOB.
Proof.
  intros Hi Hj Hs Hl. pose proof (idx_lt i j R C Hi Hj). unfold set_at. rewrite idx_ok by lia.
  unfold wr. rewrite (proj2 (Nat.ltb_ge _ _)) by lia. reflexivity.
Qed.

Context (N : num T).
Lemma rd_short (l : list T) p : length l <= p -> rd l p = Panic IndexOOB.
Proof. intros H. unfold rd. rewrite (proj2 (nth_error_None l _)) by lia. reflexivity. Qed.
Lemma wr_short (l : list T) p v : length l <= p -> wr l p v = Panic IndexOOB.
Proof. intros H. unfold wr. rewrite (proj2 (Nat.ltb_ge _ _)) by lia. reflexivity. Qed.
Lemma for_down_first {S} n (s : S) body p : 1 <= n -> body (n - 1) s = Panic p -> for_down n s body = Panic p.
Proof. intros Hn H. destruct n as [|n]; [lia|]. cbn [for_down]. replace (Datatypes.S n - 1) with n in H by lia. rewrite H. reflexivity. Qed.

Lemma elementwise_short R C (a b : list T) : R * C <= usize_max c -> length a < R * C \/ length b < R * C ->
  copy_to c R C a b = Panic IndexOOB /\ add_inplace_b c N R C a b = Panic IndexOOB /\ sub_inplace_b c N R C a b = Panic IndexOOB /\
  add_inplace_a c N R C a b = Panic IndexOOB /\ sub_inplace_a c N R C a b = Panic IndexOOB.
Proof.
  intros Hs Hl. assert (H1 : 1 <= R * C) by (destruct Hl; lia).
  unfold copy_to, add_inplace_b, sub_inplace_b, add_inplace_a, sub_inplace_a, m_len. rewrite umul_ok by exact Hs. cbn [bind].
  rewrite usub_ok by lia. cbn [bind]. replace (S (R * C - 1)) with (R * C) by lia.
  assert (Hr : forall l : list T, length l < R * C -> rd l (R * C - 1) = Panic IndexOOB) by (intros; apply rd_short; lia).
  assert (Hw : forall (l : list T) v, length l < R * C -> wr l (R * C - 1) v = Panic IndexOOB) by (intros; apply wr_short; lia).
  assert (Hp : forall l : list T, rd l (R * C - 1) = Panic IndexOOB \/ exists v, rd l (R * C - 1) = Ok v).
  { intros l. unfold rd. destruct (nth_error l (R * C - 1)); eauto. }
  repeat split; (apply for_down_first; [exact H1|]);
    (destruct (Hp a) as [Ea|[va Ea]]; destruct (Hp b) as [Eb|[vb Eb]]; rewrite ?Ea, ?Eb; cbn [bind]; try reflexivity;
     destruct Hl as [Hl|Hl]; rewrite Hr in * by exact Hl; try discriminate; auto).
Qed.

Lemma mult_returns_sizes M K U (a b cm r : list T) : 1 <= M -> 1 <= K -> 1 <= U ->
  M * K <= usize_max c -> K * U <= usize_max c -> M * U <= usize_max c ->
  mult c N M K U a b cm = Ok r -> M * K <= length a /\ K * U <= length b /\ M * U <= length cm.
Proof.
  intros HM HK HU SA SB SC E.
  assert (W : wp (mult c N M K U a b cm)
     (fun r => (M * K <= length a /\ K * U <= length b /\ M * U <= length cm)) (fun _ => True)).
  2:{ rewrite E in W. exact W. }
  unfold mult. eapply wp_mono with (E := fun _ => True).
  - apply wp_for_down with (Inv := fun j (s : list T) => length s = length cm /\ (j < U -> M * K <= length a /\ K * U <= length b /\ M * U <= length cm)).
    + split; [reflexivity|lia].
    + intros j s Hj (Ls & Hs). destruct (Nat.eq_dec (S j) U) as [EU|NU].
      * apply wp_bind. eapply wp_mono with (E := fun _ => True).
        -- apply wp_for_range with (Inv := fun i (s : nat * list T) => fst s = i * K /\ length (snd s) = length cm /\
             (1 <= i -> i * K <= length a /\ K * U <= length b /\ i * U <= length cm)); [lia| |].
           ++ cbn. repeat split; (exact Ls || lia).
           ++ intros i [ia s1] Hi (Ei & L1 & H1). cbn [fst snd] in *. apply wp_bind. eapply wp_mono with (E := fun _ => True).
              ** apply wp_for_range with (Inv := fun k (s : nat * T) => fst s = i * K + k /\ (1 <= k -> i * K + k <= length a /\ (k - 1) * U + j < length b)); [lia| |].
                 --- cbn. lia.
                 --- intros k [ia2 t] Hk (Ei2 & H2). cbn [fst snd] in *.
                     unfold rd. destruct (nth_error a ia2) as [av|] eqn:Ea; cbn [bind wp]; [|exact I].
                     rewrite idx_ok by nia. destruct (nth_error b (k * U + j)) as [bv|] eqn:Eb; cbn [bind wp]; [|exact I].
                     destruct (n_mul N av bv); cbn [bind wp]; [|exact I]. destruct (n_add N t a0); cbn [bind wp]; [|exact I].
                     apply nth_error_lt in Ea, Eb. rewrite uadd_ok by nia. cbn. split; [lia|]. intros _. replace (k - 0) with k by lia. lia.
              ** intros [ia2 t] (Ei2 & H2). cbn [fst snd] in *. specialize (H2 HK).
                 rewrite idx_ok by nia. unfold wr. destruct (i * U + j <? length s1) eqn:El; cbn [bind wp]; [|exact I].
                 apply Nat.ltb_lt in El. cbn. rewrite length_upd. split; [lia|]. split; [exact L1|]. intros _. split; [lia|]. split; [nia|]. nia.
              ** auto.
        -- intros [ia s1] (_ & L1 & H1). cbn [fst snd wp] in *. split; [exact L1|]. intros _. specialize (H1 HM). split; [lia|]. split; lia.
        -- auto.
      * destruct (Hs ltac:(lia)) as (Q1 & Q2 & Q3).
        apply wp_bind. eapply wp_mono with (E := fun _ => True).
        -- apply wp_for_range with (Inv := fun i (s : nat * list T) => length (snd s) = length cm); [lia|exact Ls|].
           intros i [ia s1] Hi L1. cbn [fst snd] in *. destruct (for_range 0 K _ _) as [[ia2 t]|]; cbn [bind wp]; [|exact I].
           rewrite idx_ok by nia. unfold wr. destruct (_ <? _); cbn [bind wp]; [|exact I]. cbn. rewrite length_upd. exact L1.
        -- intros [ia s1] L1. cbn [snd wp] in *. split; [exact L1|]. auto.
        -- auto.
  - intros s (_ & H). apply H; lia.
  - auto.
Qed.

(** ** the nalgebra view *)
Lemma nalgebra_cell R C (m : list T) i j : valid c R C m -> i < R -> j < C ->
  nalgebra_offset R C i j < nalgebra_slice_len R C /\ nalgebra_slice_len R C <= length m /\
  exists v, nth_error m (nalgebra_offset R C i j) = Some v /\ get_at c C m i j = Ok v.
Proof.
  intros V Hi Hj. destruct (get_at_cell c R C m i j V Hi Hj) as (v & E & G). unfold nalgebra_offset, nalgebra_slice_len.
  rewrite Nat.mul_1_r. split; [apply idx_lt; auto|]. split; [apply V|]. exists v. split; auto.
Qed.
Lemma nalgebra_onto R C p : p < nalgebra_slice_len R C ->
  exists i j, i < R /\ j < C /\ nalgebra_offset R C i j = p /\
    forall i' j', i' < R -> j' < C -> nalgebra_offset R C i' j' = p -> i' = i /\ j' = j.
Proof.
  unfold nalgebra_offset, nalgebra_slice_len. intros H. destruct (idx_split_lt p R C H) as (i & j & -> & Hi & Hj).
  exists i, j. split; [auto|]. split; [auto|]. split; [lia|]. intros i' j' Hi' Hj' E. apply (idx_inj i' j' i j C); lia.
Qed.
Lemma nalgebra_escapes (R C : nat) (data : list T) : length data < R * C ->
  exists m i j, array_new_unchecked R C data = Ok m /\ i < R /\ j < C /\
    length m < nalgebra_slice_len R C /\ length m <= nalgebra_offset R C i j.
Proof.
  intros H. exists data, (R - 1), (C - 1). unfold nalgebra_offset, nalgebra_slice_len. split; [reflexivity|].
  assert (1 <= R /\ 1 <= C) as [] by nia. split; [lia|]. split; [lia|]. split; [lia|]. nia.
Qed.

(** ** indexing *)
Lemma index_is_get R C (m : list T) i j : valid c R C m -> i < R -> j < C -> index_get m (i * C + j) = get_at c C m i j.
Proof. intros V Hi Hj. destruct (valid_cell c R C m i j V Hi Hj). unfold index_get, get_at. rewrite idx_ok by lia. reflexivity. Qed.
Lemma index_is_set R C (m : list T) i j v : valid c R C m -> i < R -> j < C -> index_set m (i * C + j) v = set_at c C m i j v.
Proof. intros V Hi Hj. destruct (valid_cell c R C m i j V Hi Hj). unfold index_set, set_at. rewrite idx_ok by lia. reflexivity. Qed.
End Constructors.

(** ** builders *)
Section Builders.
Context {T : Type} (c : cfg) (d : T).

Lemma imax_usize k : allocatable c k -> k <= usize_max c.
Proof. unfold allocatable. pose proof (imax_le c). unfold umaxZ in *. lia. Qed.
Lemma build_matrix_ok R C : allocatable c (R * C) -> build_matrix c R C d = Ok (repeat d (R * C)).
Proof.
  intros H. apply imax_usize in H. unfold build_matrix, boxed_new. rewrite umul_ok by exact H. cbn [bind].
  destruct (no_assert c); [reflexivity|]. rewrite repeat_length, Nat.eqb_refl. reflexivity.
Qed.
Lemma build_filter_ok n : allocatable c (n * n) -> exists f, build_filter c d n = Ok f /\ kf_fresh d n f.
Proof.
  intros H. unfold build_filter, build_vector, array_new_unchecked. rewrite !build_matrix_ok by exact H. cbn [bind].
  eexists. split; [reflexivity|]. repeat split.
Qed.
Lemma build_control_ok n m : allocatable c (n * m) -> allocatable c (m * m) -> exists k, build_control c d n m = Ok k /\ ct_fresh d n m k.
Proof.
  intros H H2. unfold build_control, build_vector, array_new_unchecked. rewrite !build_matrix_ok by assumption. cbn [bind].
  eexists. split; [reflexivity|]. repeat split.
Qed.
Lemma build_observation_ok n m : allocatable c (n * n) -> allocatable c (n * m) -> allocatable c (m * m) ->
  exists o, build_observation c d n m = Ok o /\ ob_fresh d n m o.
Proof.
  intros H H1 H2. assert (H3 : allocatable c (m * n)) by (rewrite Nat.mul_comm; exact H1).
  unfold build_observation, build_vector, array_new_unchecked. rewrite !build_matrix_ok by assumption. cbn [bind].
  eexists. split; [reflexivity|]. repeat split.
Qed.

Lemma repeat_valid R C k : R * C <= k -> allocatable c k -> valid c R C (repeat d k).
Proof. intros H A. split; [rewrite repeat_length; exact H|]. unfold slice_ok. rewrite repeat_length. exact A. Qed.
Lemma alloc_le k k' : k' <= k -> allocatable c k -> allocatable c k'.
Proof. unfold allocatable. lia. Qed.
Ltac rv := apply repeat_valid; [nia|match goal with A : allocatable c ?k |- _ => apply (alloc_le k); [nia|exact A] end].
Lemma kf_fresh_valid n f : allocatable c (n * n) -> kf_fresh d n f -> kf_valid c n f.
Proof.
  intros A (H1 & H2 & H3 & H4 & H5 & H6). unfold kf_valid. rewrite H1, H2, H3, H4, H5, H6.
  repeat match goal with |- _ /\ _ => split end; rv.
Qed.
Lemma ct_fresh_valid n m k : allocatable c (n * m) -> allocatable c (m * m) -> ct_fresh d n m k -> ct_valid c n m k.
Proof.
  intros A A2 (H1 & H2 & H3 & H4). unfold ct_valid. rewrite H1, H2, H3, H4.
  repeat match goal with |- _ /\ _ => split end; rv.
Qed.
Lemma ob_fresh_valid n m o : allocatable c (n * n) -> allocatable c (n * m) -> allocatable c (m * m) -> ob_fresh d n m o -> ob_valid c n m o.
Proof.
  intros A A1 A2 (H1 & H2 & H3 & H4 & H5 & H6 & H7 & H8 & H9 & H10). unfold ob_valid. rewrite H1, H2, H3, H4, H5, H6, H7, H8, H9, H10.
  assert (A3 : allocatable c (m * n)) by (rewrite Nat.mul_comm; exact A1).
  repeat match goal with |- _ /\ _ => split end; rv.
Qed.
Lemma build_filter_full n : allocatable c (n * n) -> exists f, build_filter c d n = Ok f /\ kf_fresh d n f /\ kf_valid c n f.
Proof. intros A. destruct (build_filter_ok n A) as (f & E & F). exists f. split; [exact E|]. split; [exact F|]. exact (kf_fresh_valid n f A F). Qed.
Lemma build_control_full n m : allocatable c (n * m) -> allocatable c (m * m) ->
  exists k, build_control c d n m = Ok k /\ ct_fresh d n m k /\ ct_valid c n m k.
Proof. intros A A2. destruct (build_control_ok n m A A2) as (f & E & F). exists f. split; [exact E|]. split; [exact F|]. exact (ct_fresh_valid n m f A A2 F). Qed.
Lemma build_observation_full n m : allocatable c (n * n) -> allocatable c (n * m) -> allocatable c (m * m) ->
  exists o, build_observation c d n m = Ok o /\ ob_fresh d n m o /\ ob_valid c n m o.
Proof. intros A A1 A2. destruct (build_observation_ok n m A A1 A2) as (f & E & F). exists f. split; [exact E|]. split; [exact F|]. exact (ob_fresh_valid n m f A A1 A2 F). Qed.
End Builders.

Section FreshRun.
Context {T : Type} (c : cfg) (N : num T).
Hypothesis Hz : zero_laws N.
Notation z := (n_zero N).

Lemma nth_repeat k p : p < k -> nth_error (repeat z k) p = Some z.
Proof. intros H. apply nth_error_repeat; auto. Qed.
Lemma cell_repeat R C i j : i < R -> j < C -> cell C (repeat z (R * C)) i j = Some z.
Proof. intros Hi Hj. apply nth_repeat, idx_lt; auto. Qed.
Lemma cell_repeat1 R i : i < R -> cell 1 (repeat z R) i 0 = Some z.
Proof. intros Hi. apply nth_repeat. lia. Qed.
Lemma cellwise_zero R C (f : nat -> nat -> T -> option T) k r : k = R * C -> cellwise R C (repeat z k) f r ->
  (forall i j, i < R -> j < C -> f i j z = Some z) -> r = Ok (repeat z k).
Proof.
  intros -> H Hf. destruct r as [new|e]; cbn [cellwise] in H.
  - destruct H as (L & H & _). rewrite repeat_length in L. f_equal. apply list_ext. intros p.
    destruct (Nat.lt_ge_cases p (R * C)) as [Hp|Hp].
    + rewrite (nth_repeat _ _ Hp). destruct (idx_split_lt p R C Hp) as (i & j & -> & Hi & Hj).
      rewrite <- (Hf i j Hi Hj). apply (H i j z Hi Hj). apply cell_repeat; auto.
    + rewrite !(proj2 (nth_error_None _ _)); rewrite ?repeat_length; lia || reflexivity.
  - destruct H as (_ & i & j & v & Hi & Hj & Hv & Hn). rewrite cell_repeat in Hv by auto. injection Hv as <-. rewrite Hf in Hn by auto. discriminate.
Qed.
Lemma dot_zero K f g : (forall k, k < K -> f k = Some z) -> (forall k, k < K -> g k = Some z) -> dot N K f g = Some z.
Proof.
  destruct Hz as [Ha Hm]. induction K as [|K IH]; intros Hf Hg; cbn [dot]; [reflexivity|].
  rewrite IH by auto. cbn [obind]. rewrite Hf, Hg by lia. cbn [obind]. rewrite Hm. exact Ha.
Qed.
Lemma dot1_zero K f g : 1 <= K -> (forall k, k < K -> f k = Some z) -> (forall k, k < K -> g k = Some z) -> dot1 N K f g = Some z.
Proof.
  destruct Hz as [Ha Hm]. intros HK. destruct K as [|K]; [lia|]. clear HK. induction K as [|K IH]; intros Hf Hg.
  - cbn [dot1]. rewrite Hf, Hg by lia. exact Hm.
  - rewrite dot1_S, IH by auto. cbn [obind]. rewrite Hf, Hg by lia. cbn [obind]. rewrite Hm. exact Ha.
Qed.

Ltac rv := apply repeat_valid; [nia|match goal with A : allocatable c ?k |- _ => apply (alloc_le c k); [nia|exact A] end].
Ltac zc := first [apply cell_repeat; (assumption || lia) | apply cell_repeat1; (assumption || lia)].
Ltac zz L := match type of L with cellwise _ _ (repeat z ?k) _ ?r =>
  let E := fresh in assert (E : r = Ok (repeat z k)); [eapply cellwise_zero; [|exact L|]; [nia|]|rewrite E; clear E; cbn [bind]] end.

Lemma predict_fresh n f : 1 <= n -> allocatable c (n * n) -> kf_fresh z n f -> predict c N n f = Ok f.
Proof.
  intros Hn A (E1 & E2 & E3 & E4 & E5 & E6). destruct Hz as [Ha Hm]. destruct f as [fA fx fP fQ fpx ftP]. cbn in *. subst.
  unfold predict, predict_x. cbn [kf_A kf_x kf_P kf_Q kf_px kf_tP].
  zz (mult_rowvector_cellwise c N n n (repeat z (n * n)) (repeat z n) (repeat z n) Hn ltac:(rv) ltac:(rv) ltac:(rv)).
  { intros i j Hi Hj. apply dot1_zero; [exact Hn| |]; intros; zc. }
  zz (copy_to_cellwise c n 1 (repeat z n) (repeat z n) Hn ltac:(lia) ltac:(rv) ltac:(rv)).
  { intros i j Hi Hj. replace j with 0 by lia. zc. }
  unfold predict_P. cbn [kf_A kf_x kf_P kf_Q kf_px kf_tP].
  zz (mult_cellwise c N n n n (repeat z (n * n)) (repeat z (n * n)) (repeat z (n * n)) ltac:(rv) ltac:(rv) ltac:(rv)).
  { intros i j Hi Hj. apply dot_zero; intros; zc. }
  zz (mult_transb_cellwise c N n n n (repeat z (n * n)) (repeat z (n * n)) (repeat z (n * n)) ltac:(rv) ltac:(rv) ltac:(rv)).
  { intros i j Hi Hj. apply dot_zero; intros; zc. }
  zz (add_inplace_b_cellwise c N n n (repeat z (n * n)) (repeat z (n * n)) ltac:(rv) ltac:(rv)).
  { intros i j Hi Hj. cbv beta. rewrite (cell_repeat n n) by auto. exact Ha. }
  reflexivity.
Qed.

Lemma control_fresh n m k f : 1 <= n -> allocatable c (n * n) -> allocatable c (n * m) -> allocatable c (m * m) ->
  kf_fresh z n f -> ct_fresh z n m k -> control_ c N n m k f = Ok (k, f).
Proof.
  intros Hn A A1 A2 (E1 & E2 & E3 & E4 & E5 & E6) (F1 & F2 & F3 & F4). destruct Hz as [Ha Hm].
  destruct f as [fA fx fP fQ fpx ftP]. destruct k as [kB ku kQ kBQ]. cbn in *. subst.
  unfold control_, apply_control. cbn [kf_A kf_x kf_P kf_Q kf_px kf_tP ct_B ct_u ct_Q ct_BQ].
  unfold is_empty. pose proof (imax_usize c _ A1). pose proof (imax_usize c _ A2).
  rewrite (umul_ok c m 1) by nia. cbn [bind]. destruct (Nat.eqb_spec (m * 1) 0) as [E|E]; [reflexivity|].
  rewrite (umul_ok c n m) by lia. cbn [bind]. destruct (Nat.eqb_spec (n * m) 0) as [E'|E']; [reflexivity|].
  assert (Hm1 : 1 <= m) by lia.
  zz (multadd_rowvector_cellwise c N n m (repeat z (n * m)) (repeat z m) (repeat z n) Hm1 ltac:(rv) ltac:(rv) ltac:(rv)).
  { intros i j Hi Hj. cbv beta. rewrite dot1_zero; [exact Ha|exact Hm1| |]; intros; zc. }
  zz (mult_cellwise c N n m m (repeat z (n * m)) (repeat z (m * m)) (repeat z (n * m)) ltac:(rv) ltac:(rv) ltac:(rv)).
  { intros i j Hi Hj. apply dot_zero; intros; zc. }
  zz (multadd_transb_cellwise c N n m n (repeat z (n * m)) (repeat z (n * m)) (repeat z (n * n)) ltac:(rv) ltac:(rv) ltac:(rv)).
  { intros i j Hi Hj. cbv beta. rewrite dot_zero; [exact Ha| |]; intros; zc. }
  reflexivity.
Qed.

Lemma upd_nth {A} (l : list A) i v : nth_error l i = Some v -> upd l i v = l.
Proof. revert i; induction l as [|a l IH]; intros [|i] H; cbn in *; try discriminate; [congruence|]. f_equal. auto. Qed.

Lemma fresh_run n (w : world T) os : 1 <= n -> world_allocatable c n w -> world_fresh z n w -> Forall time_update os ->
  run c N n w os = Ok w.
Proof.
  intros Hn (A & Act & Aob) (Ff & Fc & Fo) H. induction H as [|o os Ho Hos IH]; [reflexivity|].
  cbn [run]. assert (E : step c N n w o = Ok w).
  2:{ rewrite E. exact IH. }
  destruct o; cbn in Ho; try contradiction; cbn [step].
  - rewrite predict_fresh by auto. cbn [bind]. destruct w; reflexivity.
  - destruct (nth_error (w_ct w) i) as [[m k]|] eqn:E; [|reflexivity].
    pose proof (HistGen.Forall_nth _ _ _ _ Act E) as [B1 B2]. pose proof (HistGen.Forall_nth _ _ _ _ Fc E) as B3. cbn in B1, B2, B3.
    rewrite control_fresh by auto. cbn [bind]. unfold set_ct, set_kf. cbn. rewrite (upd_nth _ _ _ E). destruct w; reflexivity.
Qed.
End FreshRun.

Lemma sf_zero_laws prec emax sz : zero_laws (sf_num prec emax sz).
Proof. split; reflexivity. Qed.

(** a fresh filter corrected by a fresh one-component observation *)
Lemma fresh_correct c prec emax sz n (o : observation spec_float) f : 255 <= usize_max c -> 1 <= n -> allocatable c (n * n) ->
  kf_fresh (S754_zero false) n f -> ob_fresh (S754_zero false) n 1 o ->
  exists o' f', correct c (sf_num prec emax sz) n 1 o f = Ok (o', f') /\
    (forall i, i < n -> exists v, cell 1 (kf_x f') i 0 = Some v /\ sf_finite v = false) /\
    (forall i j, i < n -> j < n -> exists v, cell n (kf_P f') i j = Some v /\ sf_finite v = false).
Proof.
  intros Hc Hn A Ff Fo.
  assert (A1 : allocatable c (n * 1)) by (apply (alloc_le c (n * n)); [nia|exact A]).
  assert (A2 : allocatable c (1 * 1)) by (apply (alloc_le c (n * n)); [nia|exact A]).
  apply sf_scalar_destroys with (s := S754_zero false); auto.
  - eapply ob_fresh_valid; eauto.
  - eapply kf_fresh_valid; eauto.
  - destruct Ff as (_ & _ & EP & _). destruct Fo as (EH & _ & ER & _). rewrite EP, EH, ER. unfold scalar_S.
    pose proof (sf_zero_laws prec emax sz) as Z.
    rewrite (dot_zero _ Z n).
    + reflexivity.
    + intros k Hk. apply (dot_zero _ Z n); intros l Hl.
      * apply (cell_repeat (sf_num prec emax sz) 1 n 0 l); lia.
      * apply (cell_repeat (sf_num prec emax sz) n n l k); lia.
    + intros k Hk. apply (cell_repeat (sf_num prec emax sz) 1 n 0 k); lia.
Qed.

(** ** closures that do not write their output *)
Section Stale.
Context {T : Type} (c : cfg) (N : num T).
Hypothesis HN : never_panics N.

Lemma noarith e : arith_only N e -> False. Proof. intros [_ H]; auto. Qed.
Lemma wp_never {A} (m : res A) Q : wp m Q (arith_only N) -> exists a, m = Ok a /\ Q a.
Proof. destruct m; cbn; [eauto|]. intros H; destruct (noarith _ H). Qed.

Lemma predict_P_never n f : 1 <= n -> kf_valid c n f -> exists f', predict_P c N n f = Ok f' /\ kf_x f' = kf_x f /\ kf_px f' = kf_px f /\ kf_valid c n f'.
Proof.
  intros Hn (V1 & V2 & V3 & V4 & V5 & V6). unfold predict_P.
  destruct (wp_never _ _ (mult_wp c N n n n _ _ _ V1 V3 V6)) as (tP & -> & W1 & _). cbn [bind].
  destruct (wp_never _ _ (mult_transb_wp c N n n n _ _ _ W1 V1 V3)) as (P & -> & W2 & _). cbn [bind].
  destruct (wp_never _ _ (add_inplace_b_wp c N n n _ _ V4 W2)) as (P' & -> & W3 & _). cbn [bind].
  eexists. split; [reflexivity|]. cbn. split; [reflexivity|]. split; [reflexivity|]. red. cbn. repeat match goal with |- _ /\ _ => split end; assumption.
Qed.
Lemma predict_nonlinear_never n h f : 1 <= n -> kf_valid c n f -> closure_ok c N n n h ->
  exists v f', h (kf_x f) (kf_px f) = Ok v /\ predict_nonlinear c N n h f = Ok f' /\ same_matrix n 1 v (kf_x f') /\ kf_px f' = v /\ kf_valid c n f'.
Proof.
  intros Hn (V1 & V2 & V3 & V4 & V5 & V6) Hh. unfold predict_nonlinear, predict_x_nonlinear.
  destruct (wp_never _ _ (Hh _ _ V2 V5)) as (v & -> & Vv). cbn [bind].
  pose proof (copy_to_cellwise c n 1 v (kf_x f) Hn ltac:(lia) Vv V2) as HC.
  destruct (wp_never _ _ (copy_to_wp c N n 1 v (kf_x f) Hn ltac:(lia) Vv V2)) as (x & E & Vx & _). rewrite E in *. cbn [bind]. cbn [cellwise] in HC.
  destruct HC as (_ & HC & _).
  destruct (predict_P_never n (mk_kalman (kf_A f) x (kf_P f) (kf_Q f) v (kf_tP f)) Hn) as (f' & -> & Ex & Epx & Vf').
  { red. cbn. repeat match goal with |- _ /\ _ => split end; assumption. }
  exists v, f'. cbn in Ex, Epx. split; [reflexivity|]. split; [reflexivity|]. split; [|split; [exact Epx|exact Vf']].
  rewrite Ex. intros p Hp. rewrite Nat.mul_1_r in Hp.
  destruct (cell_some c n 1 (kf_x f) p 0 V2 Hp ltac:(lia)) as (u & Hu & _). specialize (HC p 0 u Hp ltac:(lia) Hu).
  unfold cell in HC. replace (p * 1 + 0) with p in HC by lia. congruence.
Qed.

Lemma nothing_ok m n : closure_ok c N m n writes_nothing.
Proof. intros x out _ V. exact V. Qed.

Lemma stale_predict n (w : world T) h l : world_ok c n w -> closure_ok c N n n h ->
  exists v w', h (kf_x (w_kf w)) (kf_px (w_kf w)) = Ok v /\
    run c N n w [OPredictNonlinear h; OSetX l; OPredictNonlinear writes_nothing] = Ok w' /\ same_matrix n 1 v (kf_x (w_kf w')).
Proof.
  intros (Hn & (Vf & _ & _) & _) Hh. destruct (predict_nonlinear_never n h (w_kf w) Hn Vf Hh) as (v & f' & Ev & E & _ & Epx & Vf').
  exists v. cbn [run step]. rewrite E. cbn [bind run step set_kf w_kf].
  set (g := mk_kalman _ _ _ _ _ _).
  assert (Vg : kf_valid c n g).
  { destruct Vf' as (V1 & V2 & V3 & V4 & V5 & V6). unfold g. red. cbn. repeat match goal with |- _ /\ _ => split end; try assumption. apply put_valid; assumption. }
  destruct (predict_nonlinear_never n writes_nothing g Hn Vg (nothing_ok n n)) as (v2 & f2 & Ev2 & E2 & Sx & _).
  unfold writes_nothing at 1 in Ev2. injection Ev2 as <-. unfold g in *. cbn in Ev, E2, Sx. rewrite Epx in *.
  fold (@writes_nothing T). rewrite E2. cbn [bind]. eexists. split; [exact Ev|]. split; [reflexivity|]. exact Sx.
Qed.

Lemma stale_correct n m (o : observation T) f : 1 <= n -> 1 <= m -> ob_valid c n m o -> kf_valid c n f ->
  exists o' f', correct_nonlinear c N n m writes_nothing o f = Ok (o', f') /\
    forall i, i < m -> cell 1 (ob_y o') i 0 = obind (cell 1 (ob_z o) i 0) (fun a => obind (cell 1 (ob_y o) i 0) (fun b => o_sub N a b)).
Proof.
  intros Hn Hm (VH & Vz & VR & Vy & VS & VK & VSinv & VHP & VPHt & VKHP) (VA & Vx & VP & VQ & Vpx & VtP).
  unfold correct_nonlinear, obs_correct_nonlinear, writes_nothing. cbn [bind].
  pose proof (sub_inplace_b_cellwise c N m 1 (ob_z o) (ob_y o) Vz Vy) as HC.
  destruct (wp_never _ _ (sub_inplace_b_wp c N m 1 _ _ Vz Vy)) as (y & E & V2 & _). rewrite E in *. cbn [bind]. cbn [cellwise] in HC. destruct HC as (_ & HC & _).
  unfold update_with_innovation, set_y. cbn [ob_H ob_z ob_R ob_y ob_S ob_K ob_Sinv ob_HP ob_PHt ob_KHP].
  destruct (wp_never _ _ (mult_wp c N m n n _ _ _ VH VP VHP)) as (HP & -> & W1 & _). cbn [bind].
  destruct (wp_never _ _ (mult_transb_wp c N m n m _ _ _ W1 VH VS)) as (S1 & -> & W2 & _). cbn [bind].
  destruct (wp_never _ _ (add_inplace_a_wp c N m m _ _ W2 VR)) as (S2 & -> & W3 & _). cbn [bind].
  destruct (wp_never _ _ (cholesky_wp c N m _ Hm W3)) as ([b S3] & -> & W4 & _). cbn [bind snd] in *.
  destruct (wp_never _ _ (invert_wp c N m _ _ Hm W4 VSinv)) as (Si & -> & W5 & _). cbn [bind].
  destruct (wp_never _ _ (mult_transb_wp c N n n m _ _ _ VP VH VPHt)) as (PHt & -> & W6 & _). cbn [bind].
  destruct (wp_never _ _ (mult_wp c N n m m _ _ _ W6 W5 VK)) as (K & -> & W7 & _). cbn [bind].
  destruct (wp_never _ _ (multadd_rowvector_wp c N n m _ _ _ Hm W7 V2 Vx)) as (x & -> & W8 & _). cbn [bind].
  destruct (wp_never _ _ (mult_wp c N m n n _ _ _ VH VP W1)) as (HP2 & -> & W9 & _). cbn [bind].
  destruct (wp_never _ _ (mult_wp c N n m n _ _ _ W7 W9 VKHP)) as (KHP & -> & W10 & _). cbn [bind].
  destruct (wp_never _ _ (sub_inplace_a_wp c N n n _ _ VP W10)) as (P' & -> & W11 & _). cbn [bind].
  do 2 eexists. split; [reflexivity|]. cbn [ob_y]. intros i Hi.
  destruct (cell_some c m 1 (ob_y o) i 0 Vy Hi ltac:(lia)) as (u & Hu & _). rewrite (HC i 0 u Hi ltac:(lia) Hu), Hu. reflexivity.
Qed.
End Stale.

Definition sevens (v : spec_float) : list spec_float -> list spec_float -> res (list spec_float) := fun _ out => Ok (put out [v; v]).

Lemma stale_refuted c sz : 255 <= usize_max c ->
  exists w h l w' x', world_ok c 2 w /\ closure_ok c (f32_num sz) 2 2 h /\
    run c (f32_num sz) 2 w [OPredictNonlinear h; OSetX l; OPredictNonlinear writes_nothing] = Ok w' /\
    cell 1 l 0 0 = Some (f32 1 0) /\ cell 1 (kf_x (w_kf w')) 0 0 = Some x' /\ x' = f32 7 0.
Proof.
  intros Hc. set (z := S754_zero false). set (w := mk_world (@ex_kf spec_float z (f32 1 0) (f32 2 0) (f32 3 0)) [] []).
  assert (W : world_ok c 2 w).
  { split; [lia|]. split; [|constructor]. split; [red; vt Hc|]. split; constructor. }
  assert (H7 : closure_ok c (f32_num sz) 2 2 (sevens (f32 7 0))).
  { intros x out _ V. apply put_valid, V. }
  destruct (stale_predict c (f32_num sz) (sf_never_panics 24 128 sz) 2 w _ [f32 1 0; f32 1 0] W H7) as (v & w' & Ev & E & S).
  exists w, (sevens (f32 7 0)), [f32 1 0; f32 1 0], w', (f32 7 0).
  split; [exact W|]. split; [exact H7|]. split; [exact E|]. split; [reflexivity|]. split; [|reflexivity].
  specialize (S 0 ltac:(lia)). unfold cell. cbn [Nat.mul Nat.add]. rewrite <- S. injection Ev as <-. reflexivity.
Qed.
