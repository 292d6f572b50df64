(** * What the kernels leave behind when they panic *)
From Verif Require Import Wp Kernels Crash CrashErase SpecCrash.

Definition cwp {S} (m : cr S) (Q : S -> Prop) (E : S -> panic -> Prop) : Prop := match m with Returned s => Q s | Unwound s p => E s p end.
Definition allc {S} (Q : S -> Prop) (m : cr S) : Prop := cwp m Q (fun s _ => Q s).

Lemma cwp_calc {A S} (s : S) (m : res A) k Q E : wp m (fun a => cwp (k a) Q E) (E s) -> cwp (calc s m k) Q E.
Proof. destruct m; auto. Qed.
Lemma cwp_lastly {S} (s : S) (m : res S) Q E : wp m Q (E s) -> cwp (lastly s m) Q E.
Proof. destruct m; auto. Qed.
Lemma cwp_within {B S} (put : B -> S) (m : cr B) k (Q : S -> Prop) E : cwp m (fun b => cwp (k b) Q E) (fun b p => E (put b) p) -> cwp (within put m k) Q E.
Proof. destruct m; auto. Qed.
Lemma cwp_cmap {B S} (g : B -> S) (m : cr B) Q E : cwp m (fun b => Q (g b)) (fun b p => E (g b) p) -> cwp (cmap g m) Q E.
Proof. destruct m; auto. Qed.
Lemma cwp_mono {S} (m : cr S) (Q Q' : S -> Prop) (E E' : S -> panic -> Prop) : cwp m Q E -> (forall s, Q s -> Q' s) -> (forall s p, E s p -> E' s p) -> cwp m Q' E'.
Proof. destruct m; cbn; auto. Qed.
Lemma cwp_down {S} n (s : S) body (Inv : nat -> S -> Prop) E : Inv n s ->
  (forall i s, i < n -> Inv (Datatypes.S i) s -> cwp (body i s) (Inv i) E) -> cwp (cfor_down n s body) (Inv 0) E.
Proof.
  revert s; induction n as [|n IH]; intros s Hs H; cbn [cfor_down]; [exact Hs|]. apply cwp_within. eapply cwp_mono; [apply H; [lia|exact Hs]| |auto].
  intros s' Hs'. apply IH; auto.
Qed.
Lemma cwp_range {S} lo hi (s : S) body (Inv : nat -> S -> Prop) E : lo <= hi -> Inv lo s ->
  (forall i s, lo <= i < hi -> Inv i s -> cwp (body i s) (Inv (Datatypes.S i)) E) -> cwp (cfor_range lo hi s body) (Inv hi) E.
Proof.
  intros Hle Hs H. unfold cfor_range. remember (hi - lo) as d eqn:Hd. revert lo s Hle Hs Hd H. induction d as [|d IH]; intros lo s Hle Hs Hd H; cbn [cfor_up].
  - replace hi with lo by lia. exact Hs.
  - apply cwp_within. eapply cwp_mono; [apply H; [lia|exact Hs]| |auto]. intros s' Hs'. apply IH; [lia|exact Hs'|lia|]. intros; apply H; auto; lia.
Qed.
(** every intermediate memory has Q *)
Lemma allc_up {S} (Q : S -> Prop) cnt lo s body : Q s -> (forall i s, Q s -> allc Q (body i s)) -> allc Q (cfor_up cnt lo s body).
Proof. intros Hs H. revert lo s Hs; induction cnt as [|cnt IH]; intros lo s Hs; cbn [cfor_up]; [exact Hs|]. apply cwp_within. eapply cwp_mono; [apply H, Hs| |auto]. intros s' Hs'. apply IH, Hs'. Qed.
Lemma allc_range {S} (Q : S -> Prop) lo hi s body : Q s -> (forall i s, Q s -> allc Q (body i s)) -> allc Q (cfor_range lo hi s body).
Proof. apply allc_up. Qed.
Lemma allc_down {S} (Q : S -> Prop) n s body : Q s -> (forall i s, Q s -> allc Q (body i s)) -> allc Q (cfor_down n s body).
Proof. intros Hs H. revert s Hs; induction n as [|n IH]; intros s Hs; cbn [cfor_down]; [exact Hs|]. apply cwp_within. eapply cwp_mono; [apply H, Hs| |auto]. intros s' Hs'. apply IH, Hs'. Qed.
Definition ctl_all {S R} (Q : S -> Prop) (QR : R -> Prop) (o : ctl S R) : Prop := match o with Next s => Q s | Return r => QR r end.
Lemma allc_range_ret {S R} (Q : S -> Prop) (QR : R -> Prop) lo hi s body : Q s -> (forall i s, Q s -> allc (ctl_all Q QR) (body i s)) -> allc (ctl_all Q QR) (cfor_range_ret lo hi s body).
Proof.
  unfold cfor_range_ret. generalize (hi - lo) as cnt. intros cnt Hs H. revert lo s Hs; induction cnt as [|cnt IH]; intros lo s Hs; cbn [cfor_up_ret]; [exact Hs|].
  apply cwp_within. eapply cwp_mono; [apply H, Hs| |auto]. intros [s'|r] Hs'; [apply IH, Hs'|exact Hs'].
Qed.
Lemma allc_calc {A S} (Q : S -> Prop) (s : S) (m : res A) k : Q s -> (forall a, m = Ok a -> allc Q (k a)) -> allc Q (calc s m k).
Proof. intros Hs H. destruct m; cbn; [apply H; reflexivity|exact Hs]. Qed.
Lemma allc_lastly {S} (Q : S -> Prop) (s : S) (m : res S) : Q s -> (forall a, m = Ok a -> Q a) -> allc Q (lastly s m).
Proof. intros Hs H. destruct m; cbn; [apply H; reflexivity|exact Hs]. Qed.
Lemma allc_within {B S} (Q : S -> Prop) (QB : B -> Prop) (put : B -> S) (m : cr B) k : allc QB m -> (forall b, QB b -> Q (put b)) -> (forall b, QB b -> allc Q (k b)) -> allc Q (within put m k).
Proof. intros Hm Hp Hk. apply cwp_within. eapply cwp_mono; [exact Hm|exact Hk|]. intros b p Hb. exact (Hp b Hb). Qed.
Lemma allc_cmap {B S} (Q : S -> Prop) (QB : B -> Prop) (g : B -> S) (m : cr B) : allc QB m -> (forall b, QB b -> Q (g b)) -> allc Q (cmap g m).
Proof. intros Hm Hp. apply cwp_cmap. eapply cwp_mono; [exact Hm|exact Hp|]. intros b p Hb. exact (Hp b Hb). Qed.

Lemma bind_Ok {A B} (m : res A) (k : A -> res B) b : bind m k = Ok b -> exists a, m = Ok a /\ k a = Ok b.
Proof. destruct m as [a|]; cbn; [|discriminate]. intros; exists a; auto. Qed.
Lemma wr_len {A} (l l' : list A) i v : wr l i v = Ok l' -> length l' = length l.
Proof. unfold wr. destruct (i <? length l); [|discriminate]. intros E; injection E as <-. apply length_upd. Qed.

Ltac inv_ok H := repeat (let a := fresh "a" in let E := fresh "Eq" in apply bind_Ok in H; destruct H as (a & E & H)).
Ltac last_wr := match goal with H : wr ?l _ _ = Ok ?l' |- _ => apply wr_len in H; rewrite H end.

Section Keep.
Context {T : Type} (c : cfg) (N : num T).
Variable L : nat.
Notation len := (fun l : list T => length l = L).

Lemma keep_copy_to M K (a t : list T) : len t -> allc len (copy_to_cr c M K a t).
Proof. intros H. apply allc_calc; [exact H|]. intros k _. apply allc_down; [exact H|]. intros i s Hs. apply allc_lastly; [exact Hs|]. intros l E. inv_ok E. apply wr_len in E. congruence. Qed.
Ltac wr_fin := repeat match goal with H : wr _ _ _ = Ok _ |- _ => apply wr_len in H end; cbn [fst snd] in *; congruence.
Lemma keep_mult M K U (a b cm : list T) : len cm -> allc len (mult_cr c N M K U a b cm).
Proof.
  intros H. apply allc_down; [exact H|]. intros j s Hs. apply (allc_cmap _ (fun s : nat * list T => length (snd s) = L)); [|auto]. apply allc_range; [exact Hs|].
  intros i [ia cd] Hc. apply allc_lastly; [exact Hc|]. intros [ia' cd'] E. apply bind_Ok in E as ([ia1 tot] & _ & E). inv_ok E. injection E as <- <-. wr_fin.
Qed.
Lemma keep_gen_mult_rowvector st M K (a x cm : list T) : len cm -> allc len (gen_mult_rowvector_cr c N st M K a x cm).
Proof.
  intros H. apply allc_calc; [exact H|]. intros b0 _. apply (allc_cmap _ (fun s : nat * list T => length (snd s) = L)); [|auto]. apply allc_range; [exact H|].
  intros i [ia cd] Hc. apply allc_lastly; [exact Hc|]. intros [ia' cd'] E. do 3 (apply bind_Ok in E as (? & _ & E)). apply bind_Ok in E as ([ia1 tot] & _ & E). inv_ok E. injection E as <- <-. wr_fin.
Qed.
Lemma keep_gen_mult_transb st M K U (a b cm : list T) : len cm -> allc len (gen_mult_transb_cr c N st M K U a b cm).
Proof.
  intros H. apply (allc_cmap _ (fun s : nat * nat * list T => length (snd s) = L)); [|auto]. apply allc_range; [exact H|].
  intros _ [[ci ai] cd] Hc. apply allc_calc; [exact Hc|]. intros e _. apply (allc_within _ (fun s : nat * nat * list T => length (snd s) = L)).
  - apply allc_range; [exact Hc|]. intros _ [[ci' ib] cd'] Hc'. apply allc_calc; [exact Hc'|]. intros [[? ?] tot] _. apply allc_calc; [exact Hc'|]. intros cd2 E.
    assert (length cd2 = L) by (inv_ok E; wr_fin). apply allc_calc; [assumption|]. intros; assumption.
  - intros [[? ?] ?] Hb; exact Hb.
  - intros [[? ?] ?] Hb. apply allc_calc; [exact Hb|]. intros; exact Hb.
Qed.
Ltac ew := intros H; (apply allc_calc; [exact H|]; intros ? _; apply allc_down; [exact H|]; intros ? ? Hs; apply allc_lastly; [exact Hs|]; intros ? E; inv_ok E; wr_fin).
Lemma keep_add_inplace_a M K (a b : list T) : len a -> allc len (add_inplace_a_cr c N M K a b).
Proof. ew. Qed.
Lemma keep_sub_inplace_a M K (a b : list T) : len a -> allc len (sub_inplace_a_cr c N M K a b).
Proof. ew. Qed.
Lemma keep_add_inplace_b M K (a b : list T) : len b -> allc len (add_inplace_b_cr c N M K a b).
Proof. ew. Qed.
Lemma keep_sub_inplace_b M K (a b : list T) : len b -> allc len (sub_inplace_b_cr c N M K a b).
Proof. ew. Qed.
Lemma keep_invert n (mat inv : list T) : len inv -> allc len (invert_l_cholesky_cr c N n mat inv).
Proof.
  intros H. apply (allc_within _ len); [|auto|].
  - apply allc_range; [exact H|]. intros i s Hs. apply allc_calc; [exact Hs|]. intros d _. apply allc_range; [exact Hs|]. intros j t Ht. apply allc_lastly; [exact Ht|].
    intros l E. inv_ok E. wr_fin.
  - intros inv' H'. apply allc_calc; [exact H'|]. intros la _. apply allc_down; [exact H'|]. intros i s Hs. apply allc_calc; [exact Hs|]. intros d _. apply allc_range; [exact Hs|]. intros j t Ht.
    apply allc_calc; [exact Ht|]. intros v _. apply (allc_within _ len); [|auto|].
    + apply allc_lastly; [exact Ht|]. intros l E. inv_ok E. wr_fin.
    + intros t' Ht'. apply allc_lastly; [exact Ht'|]. intros l E. inv_ok E. wr_fin.
Qed.
Lemma keep_cholesky n m (t : list T) : len t -> allc len (cholesky_cr c N n m t).
Proof.
  intros H. apply allc_calc; [exact H|]. intros _ _. apply (allc_within _ (ctl_all (fun s : list T * T => length (fst s) = L) len)).
  - apply allc_range_ret; [exact H|]. intros i s Hs. apply allc_range_ret; [exact Hs|]. intros j [u d] Hu. unfold chol_body_cr. cbn in Hu.
    apply allc_calc; [exact Hu|]. intros sum _. apply allc_calc; [exact Hu|]. intros u' E. assert (Hu' : length u' = L) by (inv_ok E; wr_fin).
    destruct (i =? j); [|exact Hu']. destruct (n_le N sum _); [exact Hu'|].
    apply allc_calc; [exact Hu'|]. intros el _. apply allc_calc; [exact Hu'|]. intros u2 E2. assert (Hu2 : length u2 = L) by (inv_ok E2; wr_fin).
    apply allc_calc; [exact Hu2|]. intros d' _. exact Hu2.
  - intros [s|r] Hb; exact Hb.
  - intros [[u d]|r] Hb; [|exact Hb]. apply allc_range; [exact Hb|]. intros i s Hs. apply allc_calc; [exact Hs|]. intros i1 _. apply allc_range; [exact Hs|].
    intros j s' Hs'. apply allc_lastly; [exact Hs'|]. intros l E. inv_ok E. wr_fin.
Qed.
End Keep.
