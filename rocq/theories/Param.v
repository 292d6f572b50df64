(** * Parametricity: a relation between the elements of two types that the arithmetic respects is respected by every program *)
From Coq Require Import Lia.
From Verif Require Import Prelude Numeric Matrix Filter Extended History SpecParam.

Section Pars.
Context {T1 T2 : Type} (esc : Prop) (R : T1 -> T2 -> Prop).

(** related values of every type occurring in the model *)
Class Rel (A B : Type) := rel : A -> B -> Prop.
#[local] Instance rel_T : Rel T1 T2 := R.
#[local] Instance rel_nat : Rel nat nat := eq.
#[local] Instance rel_Z : Rel Z Z := eq.
#[local] Instance rel_bool : Rel bool bool := eq.
#[local] Instance rel_unit : Rel unit unit := eq.
#[local] Instance rel_prod {A B C D} (r : Rel A B) (s : Rel C D) : Rel (A * C) (B * D) := fun p q => rel (fst p) (fst q) /\ rel (snd p) (snd q).
#[local] Instance rel_list {A B} (r : Rel A B) : Rel (list A) (list B) := Forall2 r.
#[local] Instance rel_ctl {A B C D} (r : Rel A B) (s : Rel C D) : Rel (ctl A C) (ctl B D) :=
  fun p q => match p, q with Next a, Next b => rel a b | Return a, Return b => rel a b | _, _ => False end.
#[local] Instance rel_kalman : Rel (kalman T1) (kalman T2) := kf_rel R.
#[local] Instance rel_obs : Rel (observation T1) (observation T2) := ob_rel R.
#[local] Instance rel_control : Rel (control T1) (control T2) := ct_rel R.

Definition prel {A B} {r : Rel A B} (m1 : res A) (m2 : res B) : Prop :=
  (esc /\ m1 = Panic NumPanic) \/ match m1, m2 with Ok a, Ok b => rel a b | Panic p, Panic q => p = q | _, _ => False end.

Lemma prel_ok {A B} (r : Rel A B) a b : rel a b -> prel (Ok a) (Ok b).
Proof. right. exact H. Qed.
Lemma prel_panic {A B} (r : Rel A B) p : @prel A B r (Panic p) (Panic p).
Proof. right. reflexivity. Qed.
Lemma prel_same {A} (r : Rel A A) (m : res A) : (forall a, rel a a) -> prel m m.
Proof. intros H. right. destruct m; auto. Qed.
Lemma prel_bind {A B C D} (r : Rel A B) (s : Rel C D) (m1 : res A) (m2 : res B) (k1 : A -> res C) (k2 : B -> res D) :
  prel m1 m2 -> (forall a b, rel a b -> prel (k1 a) (k2 b)) -> prel (bind m1 k1) (bind m2 k2).
Proof.
  intros [(He & ->)|H] Hk; [left; split; [exact He|reflexivity]|]. destruct m1 as [a|p], m2 as [b|q]; cbn; try contradiction.
  - apply Hk, H.
  - right. exact H.
Qed.
Lemma prel_for_up {A B} (r : Rel A B) cnt : forall lo (s1 : A) (s2 : B) b1 b2, rel s1 s2 ->
  (forall i s1 s2, rel s1 s2 -> prel (b1 i s1) (b2 i s2)) -> prel (for_up cnt lo s1 b1) (for_up cnt lo s2 b2).
Proof.
  induction cnt as [|cnt IH]; intros lo s1 s2 b1 b2 Hs H; cbn [for_up]; [apply prel_ok, Hs|].
  apply prel_bind with (r := r); [apply H, Hs|]. intros a b Hab. apply IH; auto.
Qed.
Lemma prel_for_range {A B} (r : Rel A B) lo hi (s1 : A) (s2 : B) b1 b2 : rel s1 s2 ->
  (forall i s1 s2, rel s1 s2 -> prel (b1 i s1) (b2 i s2)) -> prel (for_range lo hi s1 b1) (for_range lo hi s2 b2).
Proof. apply prel_for_up. Qed.
Lemma prel_for_down {A B} (r : Rel A B) cnt : forall (s1 : A) (s2 : B) b1 b2, rel s1 s2 ->
  (forall i s1 s2, rel s1 s2 -> prel (b1 i s1) (b2 i s2)) -> prel (for_down cnt s1 b1) (for_down cnt s2 b2).
Proof.
  induction cnt as [|cnt IH]; intros s1 s2 b1 b2 Hs H; cbn [for_down]; [apply prel_ok, Hs|].
  apply prel_bind with (r := r); [apply H, Hs|]. intros a b Hab. apply IH; auto.
Qed.
Lemma prel_while {A B} (r : Rel A B) fuel : forall (s1 : A) (s2 : B) c1 c2 b1 b2, rel s1 s2 -> (forall s1 s2, rel s1 s2 -> c1 s1 = c2 s2) ->
  (forall s1 s2, rel s1 s2 -> prel (b1 s1) (b2 s2)) -> prel (while_ fuel c1 b1 s1) (while_ fuel c2 b2 s2).
Proof.
  induction fuel as [|fuel IH]; intros s1 s2 c1 c2 b1 b2 Hs Hc H; cbn [while_]; [apply prel_panic|].
  rewrite (Hc s1 s2 Hs). destruct (c2 s2); [|apply prel_ok, Hs]. apply prel_bind with (r := r); [apply H, Hs|]. intros a b Hab. apply IH; auto.
Qed.
Lemma prel_for_up_ret {A B C D} (r : Rel A B) (s : Rel C D) cnt : forall lo (s1 : A) (s2 : B) (b1 : nat -> A -> res (ctl A C)) (b2 : nat -> B -> res (ctl B D)), rel s1 s2 ->
  (forall i s1 s2, rel s1 s2 -> prel (b1 i s1) (b2 i s2)) -> prel (for_up_ret cnt lo s1 b1) (for_up_ret cnt lo s2 b2).
Proof.
  induction cnt as [|cnt IH]; intros lo s1 s2 b1 b2 Hs H; cbn [for_up_ret]; [apply prel_ok; exact Hs|].
  apply prel_bind with (r := rel_ctl r s); [apply H, Hs|]. intros [a|a] [b|b] Hab; try destruct Hab; [apply IH; auto|apply prel_ok; exact Hab].
Qed.
Lemma prel_for_range_ret {A B C D} (r : Rel A B) (s : Rel C D) lo hi (s1 : A) (s2 : B) (b1 : nat -> A -> res (ctl A C)) (b2 : nat -> B -> res (ctl B D)) : rel s1 s2 ->
  (forall i s1 s2, rel s1 s2 -> prel (b1 i s1) (b2 i s2)) -> prel (for_range_ret lo hi s1 b1) (for_range_ret lo hi s2 b2).
Proof. apply prel_for_up_ret. Qed.
Lemma f2_len {A B} (P : A -> B -> Prop) l1 l2 : Forall2 P l1 l2 -> length l1 = length l2.
Proof. induction 1; cbn; congruence. Qed.
Lemma f2_nth {A B} (P : A -> B -> Prop) l1 l2 i : Forall2 P l1 l2 -> match nth_error l1 i, nth_error l2 i with Some a, Some b => P a b | None, None => True | _, _ => False end.
Proof. intros H. revert i. induction H; intros [|i]; cbn; auto. apply IHForall2. Qed.
Lemma f2_upd {A B} (P : A -> B -> Prop) l1 l2 i a b : Forall2 P l1 l2 -> P a b -> Forall2 P (upd l1 i a) (upd l2 i b).
Proof. intros H. revert i. induction H; intros [|i] Hab; cbn; auto. Qed.
Lemma prel_rd {A B} (r : Rel A B) (l1 : list A) (l2 : list B) i1 i2 : rel l1 l2 -> i1 = i2 -> prel (rd l1 i1) (rd l2 i2).
Proof. intros H <-. unfold rd. pose proof (f2_nth r l1 l2 i1 H) as G. destruct (nth_error l1 i1), (nth_error l2 i1); try contradiction; [apply prel_ok, G|apply prel_panic]. Qed.
Lemma prel_wr {A B} (r : Rel A B) (l1 : list A) (l2 : list B) i1 i2 v1 v2 : rel l1 l2 -> i1 = i2 -> rel v1 v2 -> prel (wr l1 i1 v1) (wr l2 i2 v2).
Proof. intros H <- Hv. unfold wr. rewrite (f2_len r l1 l2 H). destruct (i1 <? length l2); [apply prel_ok, f2_upd; auto|apply prel_panic]. Qed.

Context (c : cfg) (N1 : num T1) (N2 : num T2).
Hypothesis HN : num_rel esc R N1 N2.

Lemma prel_opt (o1 : option T1) (o2 : option T2) : opt_rel esc R o1 o2 -> prel (of_opt o1) (of_opt o2).
Proof. unfold opt_rel. destruct o1 as [a|], o2 as [b|]; intros H; [apply prel_ok, H|contradiction|left; split; [exact H|reflexivity]|apply prel_panic]. Qed.
Lemma prel_add a b a' b' : R a a' -> R b b' -> prel (n_add N1 a b) (n_add N2 a' b').
Proof. intros. apply prel_opt. now apply HN. Qed.
Lemma prel_sub a b a' b' : R a a' -> R b b' -> prel (n_sub N1 a b) (n_sub N2 a' b').
Proof. intros. apply prel_opt. now apply HN. Qed.
Lemma prel_mul a b a' b' : R a a' -> R b b' -> prel (n_mul N1 a b) (n_mul N2 a' b').
Proof. intros. apply prel_opt. now apply HN. Qed.
Lemma prel_neg a a' : R a a' -> prel (n_neg N1 a) (n_neg N2 a').
Proof. intros. apply prel_opt. now apply HN. Qed.
Lemma prel_recip a a' : R a a' -> prel (n_recip N1 a) (n_recip N2 a').
Proof. intros. apply prel_opt. now apply HN. Qed.
Lemma prel_sqrt a a' : R a a' -> prel (n_sqrt N1 a) (n_sqrt N2 a').
Proof. intros. apply prel_opt. now apply HN. Qed.
Lemma zero_rel : R (n_zero N1) (n_zero N2). Proof. apply HN. Qed.
Lemma one_rel : R (n_one N1) (n_one N2). Proof. apply HN. Qed.
Lemma sum0_rel : R (n_sum0 N1) (n_sum0 N2). Proof. apply HN. Qed.
Lemma le_rel a b a' b' : R a a' -> R b b' -> n_le N1 a b = n_le N2 a' b'. Proof. apply HN. Qed.

(** make equal what is equal *)
Ltac norm := repeat match goal with
  | p : (_ * _)%type |- _ => destruct p; cbn [fst snd] in *
  | H : rel _ _ |- _ => progress (unfold rel in H)
  | H : rel_prod _ _ ?p ?q |- _ => let H1 := fresh "H" in let H2 := fresh "H" in destruct H as (H1 & H2); cbn [fst snd] in H1, H2
  | H : rel_nat _ _ |- _ => unfold rel_nat in H
  | H : rel_Z _ _ |- _ => unfold rel_Z in H
  | H : rel_bool _ _ |- _ => unfold rel_bool in H
  | H : rel_unit _ _ |- _ => unfold rel_unit in H
  | H : rel_T _ _ |- _ => unfold rel_T in H
  | H : ?a = ?b |- _ => is_var a; subst a
  | H : ?a = ?b |- _ => is_var b; subst b
  end.
Ltac triv := solve [ reflexivity | assumption | apply zero_rel | apply one_rel | apply sum0_rel ].
Ltac rels := cbn [fst snd]; repeat match goal with
  | |- rel (_, _) (_, _) => split; cbn [fst snd]
  | |- rel_prod _ _ (_, _) (_, _) => split; cbn [fst snd]
  | |- rel (if ?b then _ else _) (if ?b then _ else _) => destruct b
  | |- R (if ?b then _ else _) (if ?b then _ else _) => destruct b
  | |- rel (Next _) (Next _) => hnf
  | |- rel (Return _) (Return _) => hnf
  | _ => triv
  end.
Ltac base := match goal with
  | |- prel (n_add _ _ _) _ => apply prel_add; rels
  | |- prel (n_sub _ _ _) _ => apply prel_sub; rels
  | |- prel (n_mul _ _ _) _ => apply prel_mul; rels
  | |- prel (n_neg _ _) _ => apply prel_neg; rels
  | |- prel (n_recip _ _) _ => apply prel_recip; rels
  | |- prel (n_sqrt _ _) _ => apply prel_sqrt; rels
  | |- prel (rd _ _) (rd _ _) => eapply prel_rd; rels
  | |- prel (wr _ _ _) (wr _ _ _) => eapply prel_wr; rels
  | |- prel (Ok _) (Ok _) => apply prel_ok; rels
  | |- prel (Panic _) (Panic _) => apply prel_panic
  | |- @prel nat nat _ ?m ?m => apply prel_same; reflexivity
  | |- @prel Z Z _ ?m ?m => apply prel_same; reflexivity
  | |- @prel unit unit _ ?m ?m => apply prel_same; reflexivity
  | |- @prel bool bool _ ?m ?m => apply prel_same; reflexivity
  | |- prel (bind _ _) (bind _ _) => eapply prel_bind; [|intros ? ? ?; norm]
  | |- prel (for_range _ _ _ _) _ => eapply prel_for_range; [rels|intros ? ? ? ?; norm]
  | |- prel (for_down _ _ _) _ => eapply prel_for_down; [rels|intros ? ? ? ?; norm]
  | |- prel (while_ _ _ _ _) _ => eapply prel_while; [rels|intros ? ? ?; norm; reflexivity|intros ? ? ?; norm]
  | |- prel (for_range_ret _ _ _ _) _ => eapply prel_for_range_ret; [rels|intros ? ? ? ?; norm]
  | |- prel (if ?b then _ else _) (if ?b then _ else _) => destruct b
  | |- prel (if n_le N1 ?a ?b then _ else _) (if n_le N2 ?a' ?b' then _ else _) => rewrite (le_rel a b a' b') by triv
  | H : forall o t o' t', R o o' -> R t t' -> prel (?f o t) (?g o' t') |- prel (?f _ _) (?g _ _) => apply H; rels
  end.
Ltac par := repeat base.
Notation LR := (Forall2 R).

Lemma p_get_column_copy Rw C src src' j d d' : LR src src' -> LR d d' -> prel (get_column_copy c Rw C src j d) (get_column_copy c Rw C src' j d').
Proof. intros. unfold get_column_copy. cbv zeta. par. Qed.
Lemma p_get_row_copy C src src' j d d' : LR src src' -> LR d d' -> prel (get_row_copy c C src j d) (get_row_copy c C src' j d').
Proof. intros. unfold get_row_copy. par. Qed.
Lemma p_copy_to Rw C a a' d d' : LR a a' -> LR d d' -> prel (copy_to c Rw C a d) (copy_to c Rw C a' d').
Proof. intros. unfold copy_to, m_len. par. Qed.
Lemma p_mult M K U a b cm a' b' cm' : LR a a' -> LR b b' -> LR cm cm' -> prel (mult c N1 M K U a b cm) (mult c N2 M K U a' b' cm').
Proof. intros. unfold mult. par. Qed.
Lemma p_mult_buffered M K U a b cm x a' b' cm' x' : LR a a' -> LR b b' -> LR cm cm' -> LR x x' ->
  prel (mult_buffered c N1 M K U a b cm x) (mult_buffered c N2 M K U a' b' cm' x').
Proof. intros Ha Hb Hc Hx. unfold mult_buffered. rewrite (f2_len R x x' Hx). repeat first [base | apply p_get_column_copy; assumption]. Qed.
Lemma p_gen_rowvector s1 s2 M K a x cm a' x' cm' : LR a a' -> LR x x' -> LR cm cm' ->
  (forall o t o' t', R o o' -> R t t' -> prel (s1 o t) (s2 o' t')) -> prel (gen_mult_rowvector c N1 s1 M K a x cm) (gen_mult_rowvector c N2 s2 M K a' x' cm').
Proof. intros. unfold gen_mult_rowvector. par. Qed.
Lemma p_mult_rowvector M K a x cm a' x' cm' : LR a a' -> LR x x' -> LR cm cm' -> prel (mult_rowvector c N1 M K a x cm) (mult_rowvector c N2 M K a' x' cm').
Proof. intros. apply p_gen_rowvector; auto. intros. base. Qed.
Lemma p_multadd_rowvector M K a x cm a' x' cm' : LR a a' -> LR x x' -> LR cm cm' -> prel (multadd_rowvector c N1 M K a x cm) (multadd_rowvector c N2 M K a' x' cm').
Proof. intros. apply p_gen_rowvector; auto. intros. base. Qed.
Lemma p_gen_transb s1 s2 M K U a b cm a' b' cm' : LR a a' -> LR b b' -> LR cm cm' ->
  (forall o t o' t', R o o' -> R t t' -> prel (s1 o t) (s2 o' t')) -> prel (gen_mult_transb c N1 s1 M K U a b cm) (gen_mult_transb c N2 s2 M K U a' b' cm').
Proof. intros. unfold gen_mult_transb. par. Qed.
Lemma p_mult_transb M K U a b cm a' b' cm' : LR a a' -> LR b b' -> LR cm cm' -> prel (mult_transb c N1 M K U a b cm) (mult_transb c N2 M K U a' b' cm').
Proof. intros. apply p_gen_transb; auto. intros. base. Qed.
Lemma p_multadd_transb M K U a b cm a' b' cm' : LR a a' -> LR b b' -> LR cm cm' -> prel (multadd_transb c N1 M K U a b cm) (multadd_transb c N2 M K U a' b' cm').
Proof. intros. apply p_gen_transb; auto. intros. base. Qed.
Lemma p_multscale_transb s s' M K U a b cm a' b' cm' : R s s' -> LR a a' -> LR b b' -> LR cm cm' -> prel (multscale_transb c N1 s M K U a b cm) (multscale_transb c N2 s' M K U a' b' cm').
Proof. intros. apply p_gen_transb; auto. intros. base. Qed.
Lemma p_m_sub Rw C a b d a' b' d' : LR a a' -> LR b b' -> LR d d' -> prel (m_sub c N1 Rw C a b d) (m_sub c N2 Rw C a' b' d').
Proof. intros. unfold m_sub, m_len. par. Qed.
Lemma p_add_inplace_a Rw C a b a' b' : LR a a' -> LR b b' -> prel (add_inplace_a c N1 Rw C a b) (add_inplace_a c N2 Rw C a' b').
Proof. intros. unfold add_inplace_a, m_len. par. Qed.
Lemma p_add_inplace_b Rw C a b a' b' : LR a a' -> LR b b' -> prel (add_inplace_b c N1 Rw C a b) (add_inplace_b c N2 Rw C a' b').
Proof. intros. unfold add_inplace_b, m_len. par. Qed.
Lemma p_sub_inplace_a Rw C a b a' b' : LR a a' -> LR b b' -> prel (sub_inplace_a c N1 Rw C a b) (sub_inplace_a c N2 Rw C a' b').
Proof. intros. unfold sub_inplace_a, m_len. par. Qed.
Lemma p_sub_inplace_b Rw C a b a' b' : LR a a' -> LR b b' -> prel (sub_inplace_b c N1 Rw C a b) (sub_inplace_b c N2 Rw C a' b').
Proof. intros. unfold sub_inplace_b, m_len. par. Qed.
Lemma p_sum_range lo hi f1 f2 : (forall k, prel (f1 k) (f2 k)) -> prel (sum_range N1 lo hi f1) (sum_range N2 lo hi f2).
Proof. intros Hf. unfold sum_range. base. base. - apply Hf. - base. Qed.
Lemma p_invert n m v m' v' : LR m m' -> LR v v' -> prel (invert_l_cholesky c N1 n m v) (invert_l_cholesky c N2 n m' v').
Proof.
  intros. unfold invert_l_cholesky, invert_phase1, invert_phase2. cbv zeta. repeat first [apply p_sum_range; intros | base].
Qed.
Lemma p_cholesky Rw C t t' : LR t t' -> prel (cholesky_decompose_lower c N1 Rw C t) (cholesky_decompose_lower c N2 Rw C t').
Proof.
  intros. unfold cholesky_decompose_lower, chol_zero_upper. cbv zeta.
  base. { base. } base. { base. }
  eapply prel_bind with (r := @rel_ctl (list T1 * T1) (list T2 * T2) (list T1) (list T2) _ _).
  - apply prel_for_range_ret; [rels|]. intros i s1 s2 Hs. apply prel_for_range_ret; [exact Hs|]. intros j (t1 & d1) (t2 & d2) Ht. norm. unfold chol_body, chol_inner. par. all: split; assumption.
  - intros [(t1 & d1)|t1] [(t2 & d2)|t2] Ht; try contradiction Ht.
    + destruct Ht as (Ht & _). cbn [fst] in Ht. norm. par.
    + apply prel_ok. split; [reflexivity|exact Ht].
Qed.

Ltac calls := repeat first
  [ apply p_mult; assumption | apply p_mult_rowvector; assumption | apply p_multadd_rowvector; assumption | apply p_mult_transb; assumption
  | apply p_multadd_transb; assumption | apply p_multscale_transb; assumption | apply p_add_inplace_a; assumption
  | apply p_add_inplace_b; assumption | apply p_sub_inplace_a; assumption | apply p_sub_inplace_b; assumption
  | apply p_invert; assumption | apply p_cholesky; assumption | apply p_copy_to; assumption | base ].
Ltac opens := repeat match goal with
  | H : kf_rel _ _ _ |- _ => unfold kf_rel in H | H : ob_rel _ _ _ |- _ => unfold ob_rel in H | H : ct_rel _ _ _ |- _ => unfold ct_rel in H
  | H : _ /\ _ |- _ => destruct H end.
Ltac shut := unfold rel, rel_kalman, rel_obs, rel_control, kf_rel, ob_rel, ct_rel; cbn; repeat split; assumption.

Lemma p_predict_x n f g : kf_rel R f g -> prel (predict_x c N1 n f) (predict_x c N2 n g).
Proof. intros. opens. unfold predict_x. calls. all: shut. Qed.
Lemma p_predict_P n f g : kf_rel R f g -> prel (predict_P c N1 n f) (predict_P c N2 n g).
Proof. intros. opens. unfold predict_P. calls. all: shut. Qed.
Lemma p_predict_P_tuned n l l' f g : R l l' -> kf_rel R f g -> prel (predict_P_tuned c N1 n l f) (predict_P_tuned c N2 n l' g).
Proof. intros. opens. unfold predict_P_tuned. calls. all: shut. Qed.
Lemma p_predict n f g : kf_rel R f g -> prel (predict c N1 n f) (predict c N2 n g).
Proof. intros. unfold predict. eapply prel_bind; [apply p_predict_x; assumption|]. intros. apply p_predict_P. assumption. Qed.
Lemma p_predict_tuned n l l' f g : R l l' -> kf_rel R f g -> prel (predict_tuned c N1 n l f) (predict_tuned c N2 n l' g).
Proof. intros. unfold predict_tuned. eapply prel_bind; [apply p_predict_x; assumption|]. intros. apply p_predict_P_tuned; assumption. Qed.
Lemma p_control n m k k' f g : ct_rel R k k' -> kf_rel R f g -> prel (control_ c N1 n m k f) (control_ c N2 n m k' g).
Proof.
  intros. opens. unfold control_, apply_control, is_empty. 
  eapply prel_bind with (r := rel_prod (rel_prod rel_control (rel_list rel_T)) (rel_list rel_T)).
  - calls. all: rels; shut.
  - intros ((k1 & x1) & P1) ((k2 & x2) & P2) HH. norm. apply prel_ok. split; cbn [fst snd]; [assumption|shut].
Qed.
Lemma p_update n m o o' x x' P P' : ob_rel R o o' -> LR x x' -> LR P P' ->
  @prel _ _ (rel_prod (rel_prod rel_obs (rel_list rel_T)) (rel_list rel_T)) (update_with_innovation c N1 n m o x P) (update_with_innovation c N2 n m o' x' P').
Proof. intros. opens. unfold update_with_innovation. calls. all: rels; shut. Qed.
Lemma p_set_y o o' y y' : ob_rel R o o' -> LR y y' -> ob_rel R (set_y o y) (set_y o' y').
Proof. intros. opens. shut. Qed.
Lemma p_correct n m o o' f g : ob_rel R o o' -> kf_rel R f g -> prel (correct c N1 n m o f) (correct c N2 n m o' g).
Proof.
  intros Ho Hf. unfold correct, obs_correct. opens.
  eapply prel_bind with (r := rel_prod (rel_prod rel_obs (rel_list rel_T)) (rel_list rel_T)).
  - calls. apply p_update; [apply p_set_y; [repeat split|]|..]; assumption.
  - intros ((k1 & x1) & P1) ((k2 & x2) & P2) HH. norm. apply prel_ok. split; cbn [fst snd]; [assumption|shut].
Qed.
Lemma p_fun h k x x' o o' : fun_rel esc R h k -> LR x x' -> LR o o' -> prel (h x o) (k x' o').
Proof. intros H Hx Ho. exact (H x x' o o' Hx Ho). Qed.
Lemma p_predict_x_nl n h k f g : fun_rel esc R h k -> kf_rel R f g -> prel (predict_x_nonlinear c n h f) (predict_x_nonlinear c n k g).
Proof. intros Hh Hf. opens. unfold predict_x_nonlinear. eapply prel_bind; [apply p_fun; eassumption|]. intros; norm. calls. shut. Qed.
Lemma p_predict_nl n h k f g : fun_rel esc R h k -> kf_rel R f g -> prel (predict_nonlinear c N1 n h f) (predict_nonlinear c N2 n k g).
Proof. intros. unfold predict_nonlinear. eapply prel_bind; [apply p_predict_x_nl; assumption|]. intros. apply p_predict_P; assumption. Qed.
Lemma p_predict_tuned_nl n l l' h k f g : R l l' -> fun_rel esc R h k -> kf_rel R f g -> prel (predict_tuned_nonlinear c N1 n l h f) (predict_tuned_nonlinear c N2 n l' k g).
Proof. intros. unfold predict_tuned_nonlinear. eapply prel_bind; [apply p_predict_x_nl; assumption|]. intros. apply p_predict_P_tuned; assumption. Qed.
Lemma p_correct_nl n m h k o o' f g : fun_rel esc R h k -> ob_rel R o o' -> kf_rel R f g -> prel (correct_nonlinear c N1 n m h o f) (correct_nonlinear c N2 n m k o' g).
Proof.
  intros Hh Ho Hf. unfold correct_nonlinear, obs_correct_nonlinear. opens.
  eapply prel_bind with (r := rel_prod (rel_prod rel_obs (rel_list rel_T)) (rel_list rel_T)).
  - eapply prel_bind; [apply p_fun; eassumption|]. intros; norm. calls. apply p_update; [apply p_set_y; [repeat split|]|..]; assumption.
  - intros ((k1 & x1) & P1) ((k2 & x2) & P2) HH. norm. apply prel_ok. split; cbn [fst snd]; [assumption|shut].
Qed.

Lemma f2_firstn {A B} (P : A -> B -> Prop) n l1 l2 : Forall2 P l1 l2 -> Forall2 P (firstn n l1) (firstn n l2).
Proof. intros H. revert n. induction H; intros [|n]; cbn; auto. Qed.
Lemma f2_skipn {A B} (P : A -> B -> Prop) n l1 l2 : Forall2 P l1 l2 -> Forall2 P (skipn n l1) (skipn n l2).
Proof. intros H. revert n. induction H; intros [|n]; cbn; auto. Qed.
Lemma p_put a a' b b' : LR a a' -> LR b b' -> LR (put a b) (put a' b').
Proof. intros Ha Hb. unfold put. rewrite (f2_len R a a' Ha), (f2_len R b b' Hb). apply Forall2_app; [apply f2_firstn, Hb|apply f2_skipn, Ha]. Qed.

Lemma p_step n w v o q : world_rel R w v -> op_rel esc R o q -> res_rel esc (world_rel R) (step c N1 n w o) (step c N2 n v q).
Proof.
  intros (Hk & Hc & Ho) Hq. change (@prel _ _ (world_rel R) (step c N1 n w o) (step c N2 n v q)).
  pose proof (fun i => f2_nth _ _ _ i Hc) as Nc. pose proof (fun i => f2_nth _ _ _ i Ho) as No.
  assert (KF : forall f g, kf_rel R f g -> @prel _ _ (world_rel R) (Ok (set_kf w f)) (Ok (set_kf v g))).
  { intros f g Hfg. apply prel_ok. split; [exact Hfg|]. split; assumption. }
  assert (CT : forall f g i m k k', kf_rel R f g -> ct_rel R k k' -> @prel _ _ (world_rel R) (Ok (set_ct (set_kf w f) i (m, k))) (Ok (set_ct (set_kf v g) i (m, k')))).
  { intros f g i m k k' Hfg Hkk. apply prel_ok. split; [exact Hfg|]. split; [|assumption]. apply f2_upd; auto. }
  assert (OB : forall f g i m k k', kf_rel R f g -> ob_rel R k k' -> @prel _ _ (world_rel R) (Ok (set_ob (set_kf w f) i (m, k))) (Ok (set_ob (set_kf v g) i (m, k')))).
  { intros f g i m k k' Hfg Hkk. apply prel_ok. split; [exact Hfg|]. split; [assumption|]. apply f2_upd; auto. }
  assert (NO : @prel _ _ (world_rel R) (Ok w) (Ok v)) by (apply prel_ok; split; [|split]; assumption).
  destruct Hq; cbn [step].
  - eapply prel_bind; [apply p_predict; assumption|]. intros; apply KF; assumption.
  - eapply prel_bind; [apply p_predict_tuned; eassumption|]. intros; apply KF; assumption.
  - eapply prel_bind; [apply p_predict_nl; eassumption|]. intros; apply KF; assumption.
  - eapply prel_bind; [apply p_predict_tuned_nl; eassumption|]. intros; apply KF; assumption.
  - specialize (Nc i). destruct (nth_error (w_ct w) i) as [(m & k)|], (nth_error (w_ct v) i) as [(m' & k')|]; try contradiction; [|apply NO].
    destruct Nc as (E & Nc). cbn in E, Nc. subst m'. eapply prel_bind; [apply p_control; assumption|]. intros (? & ?) (? & ?) (? & ?). apply CT; assumption.
  - specialize (No j). destruct (nth_error (w_ob w) j) as [(m & k)|], (nth_error (w_ob v) j) as [(m' & k')|]; try contradiction; [|apply NO].
    destruct No as (E & No). cbn in E, No. subst m'. eapply prel_bind; [apply p_correct; assumption|]. intros (? & ?) (? & ?) (? & ?). apply OB; assumption.
  - specialize (No j). destruct (nth_error (w_ob w) j) as [(m & k)|], (nth_error (w_ob v) j) as [(m' & k')|]; try contradiction; [|apply NO].
    destruct No as (E & No). cbn in E, No. subst m'. eapply prel_bind; [apply p_correct_nl; eassumption|]. intros (? & ?) (? & ?) (? & ?). apply OB; assumption.
  - apply KF. opens. repeat split; cbn; try assumption. apply p_put; assumption.
  - apply KF. opens. repeat split; cbn; try assumption. apply p_put; assumption.
  - apply KF. opens. repeat split; cbn; try assumption. apply p_put; assumption.
  - apply KF. opens. repeat split; cbn; try assumption. apply p_put; assumption.
  - specialize (Nc i). destruct (nth_error (w_ct w) i) as [(m & k)|], (nth_error (w_ct v) i) as [(m' & k')|]; try contradiction; [|apply NO].
    destruct Nc as (E & Nc). cbn in E, Nc. subst m'. apply (CT (w_kf w) (w_kf v)); [assumption|]. opens. repeat split; cbn; try assumption. apply p_put; assumption.
  - specialize (Nc i). destruct (nth_error (w_ct w) i) as [(m & k)|], (nth_error (w_ct v) i) as [(m' & k')|]; try contradiction; [|apply NO].
    destruct Nc as (E & Nc). cbn in E, Nc. subst m'. apply (CT (w_kf w) (w_kf v)); [assumption|]. opens. repeat split; cbn; try assumption. apply p_put; assumption.
  - specialize (Nc i). destruct (nth_error (w_ct w) i) as [(m & k)|], (nth_error (w_ct v) i) as [(m' & k')|]; try contradiction; [|apply NO].
    destruct Nc as (E & Nc). cbn in E, Nc. subst m'. apply (CT (w_kf w) (w_kf v)); [assumption|]. opens. repeat split; cbn; try assumption. apply p_put; assumption.
  - specialize (No j). destruct (nth_error (w_ob w) j) as [(m & k)|], (nth_error (w_ob v) j) as [(m' & k')|]; try contradiction; [|apply NO].
    destruct No as (E & No). cbn in E, No. subst m'. apply (OB (w_kf w) (w_kf v)); [assumption|]. opens. repeat split; cbn; try assumption. apply p_put; assumption.
  - specialize (No j). destruct (nth_error (w_ob w) j) as [(m & k)|], (nth_error (w_ob v) j) as [(m' & k')|]; try contradiction; [|apply NO].
    destruct No as (E & No). cbn in E, No. subst m'. apply (OB (w_kf w) (w_kf v)); [assumption|]. opens. repeat split; cbn; try assumption. apply p_put; assumption.
  - specialize (No j). destruct (nth_error (w_ob w) j) as [(m & k)|], (nth_error (w_ob v) j) as [(m' & k')|]; try contradiction; [|apply NO].
    destruct No as (E & No). cbn in E, No. subst m'. apply (OB (w_kf w) (w_kf v)); [assumption|]. opens. repeat split; cbn; try assumption. apply p_put; assumption.
Qed.

Theorem run_param n os qs : Forall2 (op_rel esc R) os qs -> forall w v, world_rel R w v -> res_rel esc (world_rel R) (run c N1 n w os) (run c N2 n v qs).
Proof.
  induction 1 as [|o q os qs Hq _ IH]; intros w v Hw; cbn [run]; [right; exact Hw|].
  change (@prel _ _ (world_rel R) (bind (step c N1 n w o) (fun w' => run c N1 n w' os)) (bind (step c N2 n v q) (fun w' => run c N2 n w' qs))).
  apply prel_bind with (r := world_rel R); [apply p_step; assumption|]. intros a b Hab. apply IH. exact Hab.
Qed.
End Pars.
