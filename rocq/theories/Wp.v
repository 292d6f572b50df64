(** * Reasoning rules for the panic monad and loops *)
From Verif Require Export Prelude Spec.
From Coq Require Export Lia.

Lemma wp_bind {A B} (m : res A) (k : A -> res B) Q E :
  wp m (fun a => wp (k a) Q E) E -> wp (bind m k) Q E.
Proof. destruct m; simpl; auto. Qed.

Lemma wp_mono {A} (m : res A) (Q Q' : A -> Prop) (E E' : panic -> Prop) :
  wp m Q E -> (forall a, Q a -> Q' a) -> (forall p, E p -> E' p) -> wp m Q' E'.
Proof. destruct m; simpl; auto. Qed.

Lemma wp_ok {A} (m : res A) (Q : A -> Prop) (a : A) : m = Ok a -> Q a -> forall E, wp m Q E.
Proof. intros -> H E; exact H. Qed.

Lemma bind_ok {A B} (m : res A) (k : A -> res B) a : m = Ok a -> bind m k = k a.
Proof. intros ->; reflexivity. Qed.

Lemma bind_assoc {A B C} (m : res A) (k : A -> res B) (h : B -> res C) :
  bind (bind m k) h = bind m (fun a => bind (k a) h).
Proof. destruct m; reflexivity. Qed.

Lemma bind_ext {A B} (m : res A) (k k' : A -> res B) :
  (forall a, m = Ok a -> k a = k' a) -> bind m k = bind m k'.
Proof. destruct m; simpl; auto. Qed.

Lemma bind_ret {A} (m : res A) : bind m (fun a => Ok a) = m.
Proof. destruct m; reflexivity. Qed.

(** ** arithmetic *)
Lemma uadd_ok c a b : a + b <= usize_max c -> uadd c a b = Ok (a + b).
Proof. intros H; unfold uadd; rewrite (proj2 (Nat.leb_le _ _) H); reflexivity. Qed.
Lemma umul_ok c a b : a * b <= usize_max c -> umul c a b = Ok (a * b).
Proof. intros H; unfold umul; rewrite (proj2 (Nat.leb_le _ _) H); reflexivity. Qed.
Lemma usub_ok c a b : b <= a -> usub c a b = Ok (a - b).
Proof. intros H; unfold usub; rewrite (proj2 (Nat.leb_le _ _) H); reflexivity. Qed.

Lemma idx_lt i j R C : i < R -> j < C -> i * C + j < R * C.
Proof. nia. Qed.
Lemma idx_inj i j i' j' C : j < C -> j' < C -> i * C + j = i' * C + j' -> i = i' /\ j = j'.
Proof. intros Hj Hj' H. assert (i = i') by nia. subst; lia. Qed.
Lemma idx_split p C : 0 < C -> exists i j, p = i * C + j /\ j < C.
Proof. intros HC. exists (p / C), (p mod C). split.
  - rewrite (Nat.div_mod p C) at 1 by lia. lia.
  - apply Nat.mod_upper_bound; lia. Qed.
Lemma idx_split_lt p R C : p < R * C -> exists i j, p = i * C + j /\ i < R /\ j < C.
Proof. intros H. destruct (idx_split p C) as (i & j & -> & Hj); [nia|].
  exists i, j; repeat split; trivial. nia. Qed.

(** the index computation i*C+j *)
Lemma idx_ok c i j C : i * C + j <= usize_max c ->
  forall {B} (k : nat -> res B), bind (umul c i C) (fun x => bind (uadd c x j) k) = k (i * C + j).
Proof. intros H B k. rewrite umul_ok by lia. cbn [bind]. rewrite uadd_ok by lia. reflexivity. Qed.

(** ** slices *)
Lemma length_upd {A} (l : list A) i v : length (upd l i v) = length l.
Proof. revert i; induction l as [|a l IH]; intros [|i]; simpl; auto. Qed.
Lemma nth_error_upd {A} (l : list A) i v p :
  nth_error (upd l i v) p = if p =? i then (if i <? length l then Some v else None) else nth_error l p.
Proof.
  revert i p; induction l as [|a l IH]; intros i p.
  - simpl. destruct p, i; simpl; try reflexivity; destruct (p =? i); reflexivity.
  - destruct i, p; simpl; try reflexivity. rewrite IH. reflexivity.
Qed.
Lemma nth_error_upd_same {A} (l : list A) i v : i < length l -> nth_error (upd l i v) i = Some v.
Proof. intros H. rewrite nth_error_upd, Nat.eqb_refl. rewrite (proj2 (Nat.ltb_lt _ _) H); reflexivity. Qed.
Lemma nth_error_upd_other {A} (l : list A) i v p : p <> i -> nth_error (upd l i v) p = nth_error l p.
Proof. intros H. rewrite nth_error_upd. rewrite (proj2 (Nat.eqb_neq _ _) H); reflexivity. Qed.

Lemma rd_ok {A} (l : list A) i v : nth_error l i = Some v -> rd l i = Ok v.
Proof. unfold rd; intros ->; reflexivity. Qed.
Lemma rd_some {A} (l : list A) i : i < length l -> exists v, nth_error l i = Some v /\ rd l i = Ok v.
Proof. intros H. destruct (nth_error l i) eqn:E; [exists a; split; auto; apply rd_ok; auto|].
  apply nth_error_None in E; lia. Qed.
Lemma rd_Ok_inv {A} (l : list A) i v : rd l i = Ok v -> nth_error l i = Some v.
Proof. unfold rd; destruct (nth_error l i); congruence. Qed.
Lemma wr_ok {A} (l : list A) i v : i < length l -> wr l i v = Ok (upd l i v).
Proof. unfold wr; intros H; rewrite (proj2 (Nat.ltb_lt _ _) H); reflexivity. Qed.
Lemma rd_upd_same {A} (l : list A) i v : i < length l -> rd (upd l i v) i = Ok v.
Proof. intros; apply rd_ok, nth_error_upd_same; auto. Qed.
Lemma rd_upd_other {A} (l : list A) i v p : p <> i -> rd (upd l i v) p = rd l p.
Proof. intros; unfold rd; rewrite nth_error_upd_other; auto. Qed.
Lemma nth_error_lt {A} (l : list A) i v : nth_error l i = Some v -> i < length l.
Proof. intros H. apply nth_error_Some. congruence. Qed.

Lemma list_ext {A} (l l' : list A) : (forall i, nth_error l i = nth_error l' i) -> l = l'.
Proof.
  revert l'; induction l as [|a l IH]; intros [|b l'] H.
  - reflexivity.
  - specialize (H 0); discriminate.
  - specialize (H 0); discriminate.
  - pose proof (H 0) as H0; simpl in H0. injection H0 as ->. f_equal. apply IH. intros i; exact (H (S i)).
Qed.

(** ** loops *)
Lemma for_range_nil {S} lo hi (s : S) body : hi <= lo -> for_range lo hi s body = Ok s.
Proof. intros H; unfold for_range. replace (hi - lo) with 0 by lia. reflexivity. Qed.
Lemma for_range_cons {S} lo hi (s : S) body : lo < hi ->
  for_range lo hi s body = bind (body lo s) (fun s' => for_range (Datatypes.S lo) hi s' body).
Proof. intros H; unfold for_range. replace (hi - lo) with (Datatypes.S (hi - Datatypes.S lo)) by lia. reflexivity. Qed.

Lemma for_up_snoc {S} cnt lo (s : S) body :
  for_up (Datatypes.S cnt) lo s body = bind (for_up cnt lo s body) (body (lo + cnt)).
Proof.
  revert lo s; induction cnt as [|cnt IH]; intros lo s.
  - simpl. rewrite Nat.add_0_r. destruct (body lo s); reflexivity.
  - change (bind (body lo s) (fun s' => for_up (Datatypes.S cnt) (Datatypes.S lo) s' body) =
            bind (bind (body lo s) (fun s' => for_up cnt (Datatypes.S lo) s' body)) (body (lo + Datatypes.S cnt))).
    rewrite bind_assoc. apply bind_ext; intros s' _. rewrite IH. f_equal. f_equal. lia.
Qed.
Lemma for_range_snoc {S} lo hi (s : S) body : lo <= hi ->
  for_range lo (Datatypes.S hi) s body = bind (for_range lo hi s body) (body hi).
Proof. intros H; unfold for_range. replace (Datatypes.S hi - lo) with (Datatypes.S (hi - lo)) by lia.
  rewrite for_up_snoc. f_equal. f_equal. lia. Qed.

Lemma wp_for_range {S} lo hi (s : S) body (Inv : nat -> S -> Prop) (E : panic -> Prop) :
  lo <= hi -> Inv lo s ->
  (forall i s, lo <= i < hi -> Inv i s -> wp (body i s) (Inv (Datatypes.S i)) E) ->
  wp (for_range lo hi s body) (Inv hi) E.
Proof.
  intros Hle Hs Hstep. remember (hi - lo) as d eqn:Hd. revert lo s Hle Hs Hd Hstep.
  induction d as [|d IH]; intros lo s Hle Hs Hd Hstep.
  - rewrite for_range_nil by lia. simpl. replace hi with lo by lia. exact Hs.
  - rewrite for_range_cons by lia. apply wp_bind.
    eapply wp_mono; [apply Hstep; [lia|exact Hs]| |auto].
    intros s' Hs'. apply IH; [lia|exact Hs'|lia|]. intros; apply Hstep; auto; lia.
Qed.

Lemma wp_for_down {S} n (s : S) body (Inv : nat -> S -> Prop) (E : panic -> Prop) :
  Inv n s ->
  (forall i s, i < n -> Inv (Datatypes.S i) s -> wp (body i s) (Inv i) E) ->
  wp (for_down n s body) (Inv 0) E.
Proof.
  revert s; induction n as [|n IH]; intros s Hs Hstep; simpl.
  - exact Hs.
  - apply wp_bind. eapply wp_mono; [apply Hstep; [lia|exact Hs]| |auto].
    intros s' Hs'; apply IH; auto.
Qed.

(** Replace loop bodies / re-index loop states by equations. *)
Lemma for_range_sim {S1 S2} (g : nat -> S2 -> S1) lo hi s (b1 : nat -> S1 -> res S1) (b2 : nat -> S2 -> res S2)
    (P : nat -> S2 -> Prop) :
  lo <= hi -> P lo s ->
  (forall k s, lo <= k < hi -> P k s ->
     b1 k (g k s) = bind (b2 k s) (fun s' => Ok (g (Datatypes.S k) s')) /\
     wp (b2 k s) (P (Datatypes.S k)) (fun _ => True)) ->
  for_range lo hi (g lo s) b1 = bind (for_range lo hi s b2) (fun s' => Ok (g hi s')).
Proof.
  intros Hle Hs Hstep. remember (hi - lo) as d eqn:Hd. revert lo s Hle Hs Hd Hstep.
  induction d as [|d IH]; intros lo s Hle Hs Hd Hstep.
  - rewrite !for_range_nil by lia. simpl. replace hi with lo by lia. reflexivity.
  - rewrite !for_range_cons by lia.
    destruct (Hstep lo s) as [Heq Hwp]; [lia|exact Hs|]. rewrite Heq.
    destruct (b2 lo s) as [s'|p]; simpl in *; [|reflexivity].
    apply IH; [lia|exact Hwp|lia|]. intros; apply Hstep; auto; lia.
Qed.

Lemma for_range_ext {S} lo hi (s : S) (b1 b2 : nat -> S -> res S) (P : nat -> S -> Prop) :
  lo <= hi -> P lo s ->
  (forall k s, lo <= k < hi -> P k s -> b1 k s = b2 k s /\ wp (b2 k s) (P (Datatypes.S k)) (fun _ => True)) ->
  for_range lo hi s b1 = for_range lo hi s b2.
Proof.
  intros Hle Hs Hstep.
  rewrite (for_range_sim (fun _ s => s) lo hi s b1 b2 P Hle Hs).
  - apply bind_ret.
  - intros k s' Hk HP. destruct (Hstep k s' Hk HP) as [-> ?]. split; [symmetry; apply bind_ret|assumption].
Qed.

Lemma for_down_sim {S1 S2} (g : nat -> S2 -> S1) n s (b1 : nat -> S1 -> res S1) (b2 : nat -> S2 -> res S2)
    (P : nat -> S2 -> Prop) :
  P n s ->
  (forall k s, k < n -> P (Datatypes.S k) s ->
     b1 k (g (Datatypes.S k) s) = bind (b2 k s) (fun s' => Ok (g k s')) /\
     wp (b2 k s) (P k) (fun _ => True)) ->
  for_down n (g n s) b1 = bind (for_down n s b2) (fun s' => Ok (g 0 s')).
Proof.
  revert s; induction n as [|n IH]; intros s Hs Hstep; simpl; [reflexivity|].
  destruct (Hstep n s) as [Heq Hwp]; [lia|exact Hs|]. rewrite Heq.
  destruct (b2 n s) as [s'|p]; simpl in *; [|reflexivity].
  apply IH; [exact Hwp|]. intros; apply Hstep; auto.
Qed.

Lemma for_down_ext {S} n (s : S) (b1 b2 : nat -> S -> res S) (P : nat -> S -> Prop) :
  P n s ->
  (forall k s, k < n -> P (Datatypes.S k) s -> b1 k s = b2 k s /\ wp (b2 k s) (P k) (fun _ => True)) ->
  for_down n s b1 = for_down n s b2.
Proof.
  intros Hs Hstep.
  rewrite (for_down_sim (fun _ s => s) n s b1 b2 P Hs).
  - apply bind_ret.
  - intros k s' Hk HP. destruct (Hstep k s' Hk HP) as [-> ?]. split; [symmetry; apply bind_ret|assumption].
Qed.

(** A [while] that counts from [lo] to [hi] is a [for]. *)
Lemma while_for {S1 S2} (g : nat -> S2 -> S1) lo hi fuel s (cond : S1 -> bool) (b1 : S1 -> res S1)
    (b2 : nat -> S2 -> res S2) :
  lo <= hi -> hi - lo < fuel ->
  (forall s, cond (g hi s) = false) ->
  (forall k s, lo <= k < hi -> cond (g k s) = true /\
     b1 (g k s) = bind (b2 k s) (fun s' => Ok (g (Datatypes.S k) s'))) ->
  while_ fuel cond b1 (g lo s) = bind (for_range lo hi s b2) (fun s' => Ok (g hi s')).
Proof.
  intros Hle Hfuel Hend Hstep. remember (hi - lo) as d eqn:Hd. revert fuel lo s Hle Hfuel Hd Hstep.
  induction d as [|d IH]; intros fuel lo s Hle Hfuel Hd Hstep; (destruct fuel as [|fuel]; [lia|]).
  - simpl. replace lo with hi by lia. rewrite Hend, for_range_nil by lia. reflexivity.
  - destruct (Hstep lo s) as [Hc Hb]; [lia|]. cbn [while_]. rewrite Hc, Hb.
    rewrite for_range_cons by lia.
    destruct (b2 lo s) as [s'|p]; simpl; [|reflexivity].
    apply IH; [lia|lia|lia|]. intros; apply Hstep; lia.
Qed.

(** A [while] that counts down from [n] to 0 is a reversed [for]. *)
Lemma while_for_down {S1 S2} (g : nat -> S2 -> S1) n fuel s (cond : S1 -> bool) (b1 : S1 -> res S1)
    (b2 : nat -> S2 -> res S2) :
  n < fuel ->
  (forall s, cond (g 0 s) = false) ->
  (forall k s, k < n -> cond (g (Datatypes.S k) s) = true /\
     b1 (g (Datatypes.S k) s) = bind (b2 k s) (fun s' => Ok (g k s'))) ->
  while_ fuel cond b1 (g n s) = bind (for_down n s b2) (fun s' => Ok (g 0 s')).
Proof.
  intros Hfuel Hend Hstep. revert fuel s Hfuel.
  induction n as [|n IH]; intros fuel s Hfuel; (destruct fuel as [|fuel]; [lia|]).
  - simpl. rewrite Hend. reflexivity.
  - destruct (Hstep n s) as [Hc Hb]; [lia|]. cbn [while_ for_down]. rewrite Hc, Hb.
    destruct (b2 n s) as [s'|p]; simpl; [|reflexivity].
    apply IH; [|lia]. intros; apply Hstep; lia.
Qed.

Lemma wp_for_range_ret {S R} lo hi (s : S) body (Inv : nat -> S -> Prop) (Q : R -> Prop) (E : panic -> Prop) :
  lo <= hi -> Inv lo s ->
  (forall i s, lo <= i < hi -> Inv i s ->
     wp (body i s) (fun o => match o with Next s' => Inv (Datatypes.S i) s' | Return r => Q r end) E) ->
  wp (for_range_ret lo hi s body)
     (fun o => match o with Next s' => Inv hi s' | Return r => Q r end) E.
Proof.
  unfold for_range_ret. intros Hle Hs Hstep. remember (hi - lo) as d eqn:Hd. revert lo s Hle Hs Hd Hstep.
  induction d as [|d IH]; intros lo s Hle Hs Hd Hstep; cbn [for_up_ret].
  - simpl. replace hi with lo by lia. exact Hs.
  - apply wp_bind. eapply wp_mono; [apply Hstep; [lia|exact Hs]| |auto].
    intros [s'|r] Hs'; [|exact Hs'].
    apply IH; [lia|exact Hs'|lia|]. intros; apply Hstep; auto; lia.
Qed.
