(** * An infinite noise variance switches a measured component off *)
From Coq Require Import ZArith Lia List Floats.SpecFloat Wf_nat.
From Verif Require Import Prelude Numeric FloatNum Matrix Filter Extended Spec SpecFilter SpecBits SpecFloats SpecRest BitsProof SpecMute.
Import ListNotations.
Local Open Scope nat_scope.

Section Mute.
Variables (prec emax : Z) (sz : bool).
Notation N := (sf_num prec emax sz).
Notation sf := spec_float.
Notation add := (b_add N). Notation sub := (b_sub N). Notation mul := (b_mul N).

Definition ofin (o : option sf) : Prop := match o with Some v => float_finite v | None => False end.
Definition ozero (o : option sf) : Prop := match o with Some v => float_zero v | None => False end.
Definition osame (a b : option sf) : Prop := match a, b with Some u, Some v => float_same u v | None, None => True | _, _ => False end.

Lemma same_refl a : float_same a a. Proof. left. reflexivity. Qed.
Lemma same_sym a b : float_same a b -> float_same b a. Proof. intros [->|[A B]]; [left; reflexivity|right; split; assumption]. Qed.
Lemma same_trans a b d : float_same a b -> float_same b d -> float_same a d.
Proof. intros [->|[A B]] H; [exact H|]. destruct H as [<-|[_ D]]; right; split; assumption. Qed.
Lemma osame_refl a : osame a a. Proof. destruct a; cbn; [apply same_refl|exact I]. Qed.
Lemma osame_sym a b : osame a b -> osame b a. Proof. destruct a, b; cbn; auto using same_sym. Qed.
Lemma osame_trans a b d : osame a b -> osame b d -> osame a d.
Proof. destruct a, b, d; cbn; try tauto. apply same_trans. Qed.
Lemma osame_eq a b : a = b -> osame a b. Proof. intros ->. apply osame_refl. Qed.
Lemma ozero_fin a : ozero a -> ofin a. Proof. destruct a as [[]|]; cbn; try tauto. reflexivity. Qed.
Lemma ozero_same a b : ozero a -> ozero b -> osame a b. Proof. destruct a, b; cbn; try tauto. right; tauto. Qed.
Lemma osame_zero a b : osame a b -> ozero a -> ozero b.
Proof. destruct a, b; cbn; try tauto. intros [->|[_ H]]; auto. Qed.

Ltac cases := repeat match goal with
  | H : float_zero ?a |- _ => destruct a; try destruct H; clear H
  | H : float_finite ?a |- _ => unfold float_finite in H
  end.
Lemma add_same a a' b b' : osame a a' -> osame b b' -> osame (add a b) (add a' b').
Proof.
  destruct a as [a|], a' as [a'|]; cbn; try tauto. destruct b as [b|], b' as [b'|]; cbn; try tauto.
  intros [->|[A A']] [->|[B B']].
  - left; reflexivity.
  - destruct b as [s| | |]; try destruct B. destruct b' as [s'| | |]; try destruct B'. destruct a' as [t| | |]; cbn; try (left; reflexivity). right. destruct t, s, s'; split; exact I.
  - destruct a as [s| | |]; try destruct A. destruct a' as [s'| | |]; try destruct A'. destruct b' as [t| | |]; cbn; try (left; reflexivity). right. destruct t, s, s'; split; exact I.
  - destruct b as [s| | |]; try destruct B. destruct b' as [s'| | |]; try destruct B'. destruct a as [t| | |]; try destruct A. destruct a' as [t'| | |]; try destruct A'.
    cbn. right. destruct t, t', s, s'; split; exact I.
Qed.
Lemma sub_same a a' b b' : osame a a' -> osame b b' -> osame (sub a b) (sub a' b').
Proof.
  destruct a as [a|], a' as [a'|]; cbn; try tauto. destruct b as [b|], b' as [b'|]; cbn; try tauto.
  intros [->|[A A']] [->|[B B']].
  - left; reflexivity.
  - destruct b as [s| | |]; try destruct B. destruct b' as [s'| | |]; try destruct B'. destruct a' as [t| | |]; cbn; try (left; reflexivity). right. destruct t, s, s'; split; exact I.
  - destruct a as [s| | |]; try destruct A. destruct a' as [s'| | |]; try destruct A'. destruct b' as [t| | |]; cbn; try (left; reflexivity). right. destruct t, s, s'; split; exact I.
  - destruct b as [s| | |]; try destruct B. destruct b' as [s'| | |]; try destruct B'. destruct a as [t| | |]; try destruct A. destruct a' as [t'| | |]; try destruct A'.
    cbn. right. destruct t, t', s, s'; split; exact I.
Qed.
Lemma mul_same a a' b b' : osame a a' -> osame b b' -> osame (mul a b) (mul a' b').
Proof.
  destruct a as [a|], a' as [a'|]; cbn; try tauto. destruct b as [b|], b' as [b'|]; cbn; try tauto.
  intros [->|[A A']] [->|[B B']].
  - left; reflexivity.
  - destruct b as [s| | |]; try destruct B. destruct b' as [s'| | |]; try destruct B'. destruct a' as [t| | |]; cbn; try (left; reflexivity); right; split; exact I.
  - destruct a as [s| | |]; try destruct A. destruct a' as [s'| | |]; try destruct A'. destruct b' as [t| | |]; cbn; try (left; reflexivity); right; split; exact I.
  - destruct b as [s| | |]; try destruct B. destruct b' as [s'| | |]; try destruct B'. destruct a as [t| | |]; try destruct A. destruct a' as [t'| | |]; try destruct A'.
    cbn. right; split; exact I.
Qed.
Definition oneg (a : option sf) := obind a (o_neg N).
Lemma neg_same a a' : osame a a' -> osame (oneg a) (oneg a').
Proof. destruct a as [a|], a' as [a'|]; cbn; try tauto. intros [->|[A A']]; [left; reflexivity|]. destruct a; try destruct A. destruct a'; try destruct A'. right; split; exact I. Qed.

Definition badf (a : sf) : bool := match a with S754_infinity _ | S754_nan => true | _ => false end.
Lemma badf_fin a : badf a = false -> float_finite a. Proof. destruct a; cbn; intros H; try discriminate; reflexivity. Qed.
Lemma fin_badf a : float_finite a -> badf a = false. Proof. unfold float_finite. destruct a; cbn; intros H; congruence || discriminate || tauto. Qed.
Lemma add_bad a b : badf a = true \/ badf b = true -> badf (SFadd prec emax a b) = true.
Proof. intros [H|H]; [destruct a as [| s | |]; try discriminate H; destruct b as [|t| |]; try reflexivity; destruct s, t; reflexivity|destruct b as [| s | |]; try discriminate H; destruct a as [|t| |]; try reflexivity; destruct s, t; reflexivity]. Qed.
Lemma sub_bad a b : badf a = true \/ badf b = true -> badf (SFsub prec emax a b) = true.
Proof. intros [H|H]; [destruct a as [| s | |]; try discriminate H; destruct b as [|t| |]; try reflexivity; destruct s, t; reflexivity|destruct b as [| s | |]; try discriminate H; destruct a as [|t| |]; try reflexivity; destruct s, t; reflexivity]. Qed.
Lemma mul_bad a b : badf a = true \/ badf b = true -> badf (SFmul prec emax a b) = true.
Proof. intros [H|H]; [destruct a; try discriminate H; destruct b; reflexivity|destruct b; try discriminate H; destruct a; reflexivity]. Qed.
Lemma op_finite (op : sf -> sf -> sf) : (forall a b, badf a = true \/ badf b = true -> badf (op a b) = true) -> forall a b, float_finite (op a b) -> float_finite a /\ float_finite b.
Proof.
  intros H a b F. apply fin_badf in F. split; apply badf_fin.
  - destruct (badf a) eqn:E; [rewrite (H a b) in F by (left; exact E); discriminate|reflexivity].
  - destruct (badf b) eqn:E; [rewrite (H a b) in F by (right; exact E); discriminate|reflexivity].
Qed.
Lemma add_fin a b : ofin (add a b) -> ofin a /\ ofin b.
Proof. destruct a as [a|]; [|intros []]. destruct b as [b|]; [|intros []]. apply (op_finite _ add_bad a b). Qed.
Lemma sub_fin a b : ofin (sub a b) -> ofin a /\ ofin b.
Proof. destruct a as [a|]; [|intros []]. destruct b as [b|]; [|intros []]. apply (op_finite _ sub_bad a b). Qed.
Lemma mul_fin a b : ofin (mul a b) -> ofin a /\ ofin b.
Proof. destruct a as [a|]; [|intros []]. destruct b as [b|]; [|intros []]. apply (op_finite _ mul_bad a b). Qed.
Lemma neg_fin a : ofin (oneg a) -> ofin a.
Proof. destruct a as [[]|]; cbn; tauto. Qed.
Lemma mul_zero_l a b : ozero a -> ofin b -> ozero (mul a b).
Proof. destruct a as [[]|], b as [[]|]; cbn; unfold float_finite; cbn; try tauto; discriminate. Qed.
Lemma mul_zero_r a b : ofin a -> ozero b -> ozero (mul a b).
Proof. destruct a as [[]|], b as [[]|]; cbn; unfold float_finite; cbn; try tauto; discriminate. Qed.
Lemma neg_zero a : ozero a -> ozero (oneg a).
Proof. destruct a as [[]|]; cbn; tauto. Qed.
Lemma add_zero_r a b : ozero b -> osame (add a b) a.
Proof. destruct a as [a|], b as [b|]; cbn; try tauto. intros B. destruct b as [s| | |]; try destruct B. destruct a as [t| | |]; cbn; try (left; reflexivity). right. destruct s, t; split; exact I. Qed.
Lemma add_zero_l a b : ozero a -> osame (add a b) b.
Proof. destruct a as [a|], b as [b|]; cbn; try tauto. intros B. destruct a as [s| | |]; try destruct B. destruct b as [t| | |]; cbn; try (left; reflexivity). right. destruct s, t; split; exact I. Qed.
Lemma sub_zero_r a b : ozero b -> osame (sub a b) a.
Proof. destruct a as [a|], b as [b|]; cbn; try tauto. intros B. destruct b as [s| | |]; try destruct B. destruct a as [t| | |]; cbn; try (left; reflexivity). right. destruct s, t; split; exact I. Qed.
Lemma add_zero a b : ozero a -> ozero b -> ozero (add a b).
Proof. intros A B. exact (osame_zero _ _ (osame_sym _ _ (add_zero_r a b B)) A). Qed.
Lemma leb_same a b : float_same a b -> SFleb a (S754_zero false) = SFleb b (S754_zero false).
Proof. intros [->|[A B]]; [reflexivity|]. destruct a; try destruct A. destruct b; try destruct B. reflexivity. Qed.
Lemma leb_pos_eq a b : float_same a b -> SFleb a (S754_zero false) = false -> a = b.
Proof. intros [->|[A B]] H; [reflexivity|]. destruct a; try destruct A. discriminate. Qed.

(** ** sums *)
Fixpoint gsum (op : option sf -> option sf -> option sf) (a : option sf) (K : nat) (p : nat -> option sf) : option sf :=
  match K with 0 => a | S k => op (gsum op a k p) (p k) end.
Lemma dot_gsum K f g : dot N K f g = gsum add (Some (S754_zero false)) K (fun k => mul (f k) (g k)).
Proof. induction K as [|K IH]; [reflexivity|]. cbn [dot gsum]. rewrite IH. destruct (gsum _ _ _ _); [|reflexivity]. destruct (f K), (g K); reflexivity. Qed.
Lemma subdot_gsum K a f g : subdot N K a f g = gsum sub (Some a) K (fun k => mul (f k) (g k)).
Proof. induction K as [|K IH]; [reflexivity|]. cbn [subdot gsum]. rewrite IH. destruct (gsum _ _ _ _); [|reflexivity]. destruct (f K), (g K); reflexivity. Qed.
Lemma osum_gsum lo cnt f : osum N lo cnt f = gsum add (Some (S754_zero sz)) cnt (fun k => f (lo + k)).
Proof. induction cnt as [|K IH]; [reflexivity|]. cbn [osum gsum]. rewrite IH. destruct (gsum _ _ _ _); [|reflexivity]. destruct (f (lo + K)); reflexivity. Qed.
Lemma dot1_gsum K f g : dot1 N (S K) f g = gsum add (mul (f 0) (g 0)) K (fun k => mul (f (S k)) (g (S k))).
Proof.
  induction K as [|K IH]; [reflexivity|].
  change (dot1 N (S (S K)) f g) with (obind (dot1 N (S K) f g) (fun acc => obind (f (S K)) (fun u => obind (g (S K)) (fun v => obind (o_mul N u v) (fun p => o_add N acc p))))).
  rewrite IH. cbn [gsum]. destruct (gsum _ _ _ _); [|reflexivity]. destruct (f (S K)), (g (S K)); reflexivity.
Qed.
Section Op.
Variable op : option sf -> option sf -> option sf.
Hypothesis op_same : forall a a' b b', osame a a' -> osame b b' -> osame (op a b) (op a' b').
Hypothesis op_zero : forall a b, ozero b -> osame (op a b) a.
Hypothesis op_fin : forall a b, ofin (op a b) -> ofin a /\ ofin b.
Lemma gsum_same K a a' p q : osame a a' -> (forall k, k < K -> osame (p k) (q k)) -> osame (gsum op a K p) (gsum op a' K q).
Proof. intros A H. induction K as [|K IH]; cbn; [exact A|]. apply op_same; [apply IH; intros k Hk; apply H; lia|apply H; lia]. Qed.
Lemma gsum_fin K a p : ofin (gsum op a K p) -> ofin a /\ forall k, k < K -> ofin (p k).
Proof.
  induction K as [|K IH]; cbn; intros H; [split; [exact H|lia]|]. apply op_fin in H as [H1 H2]. destruct (IH H1) as [A B]. split; [exact A|].
  intros k Hk. destruct (Nat.eq_dec k K) as [->|]; [exact H2|apply B; lia].
Qed.
Lemma gsum_drop K a a' p q k : k <= K -> osame a a' -> ozero (p k) -> (forall i, i < K -> osame (p (skip k i)) (q i)) -> osame (gsum op a (S K) p) (gsum op a' K q).
Proof.
  revert k. induction K as [|K IH]; intros k Hk A Z H.
  - replace k with 0 in Z by lia. cbn. exact (osame_trans _ _ _ (op_zero _ _ Z) A).
  - destruct (Nat.eq_dec k (S K)) as [->|Hn].
    + change (gsum op a (S (S K)) p) with (op (gsum op a (S K) p) (p (S K))). eapply osame_trans; [apply op_zero, Z|].
      apply gsum_same; [exact A|]. intros i Hi. specialize (H i Hi). unfold skip in H. rewrite (proj2 (Nat.ltb_lt i (S K)) Hi) in H. exact H.
    + change (gsum op a (S (S K)) p) with (op (gsum op a (S K) p) (p (S K))). change (gsum op a' (S K) q) with (op (gsum op a' K q) (q K)).
      apply op_same; [apply (IH k); [lia|exact A|exact Z|intros i Hi; apply H; lia]|].
      specialize (H K ltac:(lia)). unfold skip in H. rewrite (proj2 (Nat.ltb_ge K k)) in H by lia. exact H.
Qed.
End Op.
Lemma gsum_zero K a p : ozero a -> (forall k, k < K -> ozero (p k)) -> ozero (gsum add a K p).
Proof. intros A H. induction K as [|K IH]; cbn; [exact A|]. apply add_zero; [apply IH; intros; apply H; lia|apply H; lia]. Qed.
Lemma dot1_dot K f g : 1 <= K -> osame (dot1 N K f g) (dot N K f g).
Proof.
  intros HK. destruct K as [|K]; [lia|]. rewrite dot1_gsum, dot_gsum. clear HK. induction K as [|K IH].
  - cbn [gsum]. apply osame_sym, add_zero_l. exact I.
  - change (osame (add (gsum add (mul (f 0) (g 0)) K (fun k => mul (f (S k)) (g (S k)))) (mul (f (S K)) (g (S K))))
      (add (gsum add (Some (S754_zero false)) (S K) (fun k => mul (f k) (g k))) (mul (f (S K)) (g (S K))))). apply add_same; [exact IH|apply osame_refl].
Qed.
Lemma gsum_none op K p : (forall b, op None b = None) -> gsum op None K p = None.
Proof. intros H. induction K as [|K IH]; [reflexivity|]. cbn [gsum]. rewrite IH. apply H. Qed.
Lemma osubdot_gsum K a f g : obind a (fun a => subdot N K a f g) = gsum sub a K (fun k => mul (f k) (g k)).
Proof. destruct a as [a|]; [apply subdot_gsum|]. symmetry. apply gsum_none. reflexivity. Qed.
Lemma gsum_ext op K a p q : (forall k, k < K -> p k = q k) -> gsum op a K p = gsum op a K q.
Proof. intros H. induction K as [|K IH]; [reflexivity|]. cbn [gsum]. rewrite IH by (intros; apply H; lia). rewrite H by lia. reflexivity. Qed.
Lemma negsum_gsum lo cnt m x : b_negsum N lo cnt m x = gsum add (Some (S754_zero sz)) cnt (fun t => mul (oneg (m (lo + t))) (x (lo + t))).
Proof. unfold b_negsum. rewrite osum_gsum. apply gsum_ext. intros t _. destruct (m (lo + t)), (x (lo + t)); reflexivity. Qed.

(** ** the indices without k *)
Lemma skip_lt k i : i < k -> skip k i = i. Proof. intros H. unfold skip. rewrite (proj2 (Nat.ltb_lt i k) H). reflexivity. Qed.
Lemma skip_ge k i : k <= i -> skip k i = S i. Proof. intros H. unfold skip. rewrite (proj2 (Nat.ltb_ge i k) H). reflexivity. Qed.
Lemma skip_mono k i j : i < j -> skip k i < skip k j.
Proof. intros H. unfold skip. destruct (Nat.ltb_spec i k), (Nat.ltb_spec j k); lia. Qed.
Lemma skip_mono_le k i j : i <= j -> skip k i <= skip k j.
Proof. intros H. unfold skip. destruct (Nat.ltb_spec i k), (Nat.ltb_spec j k); lia. Qed.
Lemma skip_eqb k i j : (skip k i =? skip k j) = (i =? j).
Proof. unfold skip. destruct (Nat.ltb_spec i k), (Nat.ltb_spec j k); destruct (Nat.eqb_spec i j); first [reflexivity|exfalso; lia|apply Nat.eqb_eq; lia|apply Nat.eqb_neq; lia]. Qed.
Lemma skip_bound k i m : i < m -> skip k i < S m.
Proof. intros H. unfold skip. destruct (Nat.ltb_spec i k); lia. Qed.
Lemma skip_onto k m i : k <= m -> i < S m -> i <> k -> exists i1, i1 < m /\ i = skip k i1.
Proof.
  intros Hk Hi Hn. destruct (Nat.lt_ge_cases i k) as [H|H].
  - exists i. rewrite skip_lt by exact H. split; [lia|reflexivity].
  - exists (i - 1). rewrite skip_ge by lia. split; lia.
Qed.
Lemma skip_plus k j t : j <= k -> j + skip (k - j) t = skip k (j + t).
Proof. intros H. unfold skip. destruct (Nat.ltb_spec t (k - j)), (Nat.ltb_spec (j + t) k); lia. Qed.

(** ** the pivot of a component with infinite variance *)
Definition pole (o : option sf) : Prop := o = Some (S754_infinity false) \/ o = Some S754_nan.
Lemma pole_sub a b : pole a -> b <> None -> pole (sub a b).
Proof. intros [->| ->] H; (destruct b as [b|]; [|contradiction]); destruct b as [|[]| |]; cbn; try (left; reflexivity); right; reflexivity. Qed.
Lemma gsum_pole K a p r : pole a -> gsum sub a K p = Some r -> pole (Some r).
Proof.
  intros A. revert r. induction K as [|K IH]; cbn [gsum]; intros r H; [rewrite <- H; exact A|].
  destruct (gsum sub a K p) as [u|] eqn:E; [|discriminate]. specialize (IH u eq_refl). rewrite <- H. apply pole_sub; [exact IH|].
  destruct (p K); [discriminate|discriminate H].
Qed.
Lemma pole_le s : pole (Some s) -> SFleb s (S754_zero false) = false.
Proof. intros [E|E]; injection E as ->; reflexivity. Qed.
Lemma pole_add a : a <> None -> pole (add a (Some (S754_infinity false))).
Proof. intros H. destruct a as [a|]; [|contradiction]. destruct a as [|[]| |]; cbn; try (left; reflexivity); right; reflexivity. Qed.

Section Core.
Notation mat := (nat -> nat -> option sf).
Variables (m k : nat) (S L X Y S1 L1 X1 Y1 : mat).
Hypothesis Hk : k <= m.
Notation sk := (skip k).
Hypothesis HS : forall i j, i < m -> j < m -> osame (S (sk i) (sk j)) (S1 i j).
Hypothesis HSk : pole (S k k).
Hypothesis HL : b_factor N (Datatypes.S m) S L \/ b_no_factor N (Datatypes.S m) S L.
Hypothesis HL1 : forall i, i < m -> b_column N m S1 L1 i.
Hypothesis Fr : forall i, i <= m -> ofin (obind (L i i) (o_recip N)).
Hypothesis FL : forall i l, i < l <= m -> ofin (L l i).
Hypothesis FY : forall i j, j <= i <= m -> ofin (Y j i).
Hypothesis FX : forall i j, i <= m -> j <= m -> ofin (X i j).

Definition col_ok (i : nat) : Prop :=
  (i = k -> L k k = Some (S754_infinity false) /\ forall j, k < j <= m -> ozero (L j k)) /\
  (forall i1, i1 < m -> i = sk i1 -> L i i = L1 i1 i1 /\ forall j1, i1 < j1 < m -> osame (L (sk j1) i) (L1 j1 i1)).

(** the sums of column i1 of the reduced factor, and of column [sk i1] of the full one *)
Lemma column_sum i1 j1 : i1 <= j1 < m -> (forall i, i < sk i1 -> col_ok i) ->
  osame (gsum sub (S (sk i1) (sk j1)) (sk i1) (fun t => mul (L (sk i1) t) (L (sk j1) t))) (gsum sub (S1 i1 j1) i1 (fun t => mul (L1 i1 t) (L1 j1 t))).
Proof.
  intros Hj IH.
  assert (HT : forall t, t < i1 -> osame (mul (L (sk i1) (sk t)) (L (sk j1) (sk t))) (mul (L1 i1 t) (L1 j1 t))).
  { intros t Ht. destruct (IH (sk t) (skip_mono k t i1 Ht)) as [_ H]. destruct (H t ltac:(lia) eq_refl) as [_ H2]. apply mul_same; apply H2; lia. }
  destruct (Nat.lt_ge_cases i1 k) as [Hlt|Hge].
  - rewrite (skip_lt k i1 Hlt) at 2. apply gsum_same; [exact sub_same|apply HS; lia|]. intros t Ht. specialize (HT t Ht). rewrite (skip_lt k t) in HT by lia. exact HT.
  - rewrite (skip_ge k i1 Hge) at 2. apply (gsum_drop sub sub_same sub_zero_r i1 _ _ _ _ k Hge); [apply HS; lia| |exact HT].
    destruct (IH k) as [H _]; [rewrite skip_ge by exact Hge; lia|]. destruct (H eq_refl) as [_ HZ].
    apply mul_zero_l; [apply HZ|apply ozero_fin, HZ]; split; try (apply (skip_bound k) with (m := m) in Hj; lia).
    all: rewrite skip_ge by lia; lia.
Qed.
Lemma recip_nan : SFdiv prec emax (sf_one prec) S754_nan = S754_nan. Proof. reflexivity. Qed.
Lemma column_ok i : i <= m -> b_column N (Datatypes.S m) S L i -> (forall i', i' < i -> col_ok i') -> col_ok i.
Proof.
  intros Hi (s & l & d & Es & Hs & El & Ed & EL & HC) IH. rewrite osubdot_gsum in Es. split.
  - intros ->. pose proof (gsum_pole _ _ _ _ HSk Es) as Hp. specialize (Fr k Hi).
    assert (l = S754_infinity false).
    { destruct Hp as [E|E]; injection E as ->; cbn in El; injection El as <-; [reflexivity|]. rewrite EL in Fr. discriminate Fr. }
    subst l. split; [exact EL|]. intros j Hj. destruct (HC j ltac:(lia)) as [E _]. pose proof (FL k j ltac:(lia)) as F. rewrite E in F |- *.
    apply mul_fin in F as [F _]. apply mul_zero_r; [exact F|]. cbn in Ed. injection Ed as <-. exact I.
  - intros i1 Hi1 ->. destruct (HL1 i1 Hi1) as (s1 & l1 & d1 & Es1 & Hs1 & El1 & Ed1 & EL1 & HC1). rewrite osubdot_gsum in Es1.
    assert (E : s = s1).
    { pose proof (column_sum i1 i1 ltac:(lia) IH) as H. rewrite Es, Es1 in H. cbn in H. apply leb_pos_eq; [exact H|exact Hs]. }
    subst s1. rewrite El in El1. injection El1 as <-. rewrite Ed in Ed1. injection Ed1 as <-. split; [rewrite EL, EL1; reflexivity|].
    intros j1 Hj1. destruct (HC (sk j1)) as [E _]; [split; [apply skip_mono; lia|apply skip_bound; lia]|]. destruct (HC1 j1 ltac:(lia)) as [E1 _].
    rewrite E, E1, !osubdot_gsum. apply mul_same; [|apply osame_refl]. apply column_sum; [lia|exact IH].
Qed.
Lemma columns : forall i, i <= m -> col_ok i.
Proof.
  destruct HL as [[HC _]|(i0 & s & d & Hi0 & HC & Es & Hs & _)].
  - intros i. induction i as [i IH] using lt_wf_ind. intros Hi. apply column_ok; [exact Hi|apply HC; lia|]. intros i' Hi'. apply IH; lia.
  - exfalso. assert (IH : forall i, i < i0 -> col_ok i).
    { intros i. induction i as [i IH] using lt_wf_ind. intros Hi. apply column_ok; [lia|apply HC; lia|]. intros i' Hi'. apply IH; lia. }
    rewrite osubdot_gsum in Es. destruct (Nat.eq_dec i0 k) as [->|Hn].
    + pose proof (pole_le _ (gsum_pole _ _ _ _ HSk Es)) as H. change (n_le N s (n_zero N)) with (SFleb s (S754_zero false)) in Hs. congruence.
    + destruct (skip_onto k m i0 Hk Hi0 Hn) as (i1 & Hi1 & ->). destruct (HL1 i1 Hi1) as (s1 & l1 & d1 & Es1 & Hs1 & _). rewrite osubdot_gsum in Es1.
      pose proof (column_sum i1 i1 ltac:(lia) IH) as H. rewrite Es, Es1 in H. cbn in H. apply leb_same in H.
      change (n_le N s (n_zero N)) with (SFleb s (S754_zero false)) in Hs. change (n_le N s1 (n_zero N)) with (SFleb s1 (S754_zero false)) in Hs1. congruence.
Qed.
Lemma Lkk : L k k = Some (S754_infinity false). Proof. exact (proj1 (proj1 (columns k Hk) eq_refl)). Qed.
Lemma Ljk j : k < j <= m -> ozero (L j k). Proof. exact (proj2 (proj1 (columns k Hk) eq_refl) j). Qed.
Lemma Lii i1 : i1 < m -> L (sk i1) (sk i1) = L1 i1 i1.
Proof. intros H. pose proof (skip_bound k i1 m H). exact (proj1 (proj2 (columns (sk i1) ltac:(lia)) i1 H eq_refl)). Qed.
Lemma Lji i1 j1 : i1 < j1 < m -> osame (L (sk j1) (sk i1)) (L1 j1 i1).
Proof. intros H. pose proof (skip_bound k i1 m ltac:(lia)). exact (proj2 (proj2 (columns (sk i1) ltac:(lia)) i1 ltac:(lia) eq_refl) j1 H). Qed.

(** ** the two substitutions *)
Notation rr := (fun (M : mat) i => obind (M i i) (o_recip N)).
Notation zsum := (Some (S754_zero sz)).
Notation unit := (fun i j : nat => Some (if i =? j then sf_one prec else S754_zero false)).
Hypothesis EY : forall i j, j <= i <= m -> Y j i = mul (add (unit i j) (b_negsum N j (i - j) (fun t => L i t) (fun t => Y j t))) (rr L i).
Hypothesis EX : forall i j, j <= i <= m -> X i j = mul (add (Y j i) (b_negsum N (i + 1) (Datatypes.S m - (i + 1)) (fun t => L t i) (fun t => X j t))) (rr L i).
Hypothesis SX : forall i j, j <= i <= m -> X j i = X i j.
Hypothesis EY1 : forall i j, j <= i < m -> Y1 j i = mul (add (unit i j) (b_negsum N j (i - j) (fun t => L1 i t) (fun t => Y1 j t))) (rr L1 i).
Hypothesis EX1 : forall i j, j <= i < m -> X1 i j = mul (add (Y1 j i) (b_negsum N (i + 1) (m - (i + 1)) (fun t => L1 t i) (fun t => X1 j t))) (rr L1 i).
Hypothesis SX1 : forall i j, j <= i < m -> X1 j i = X1 i j.

Lemma rk_zero : ozero (rr L k).
Proof. cbn beta. rewrite Lkk. exact I. Qed.
Lemma Yjk j : j <= k -> ozero (Y j k).
Proof. intros Hj. pose proof (FY k j ltac:(lia)) as F. rewrite EY in F |- * by lia. apply mul_fin in F as [F _]. apply mul_zero_r; [exact F|exact rk_zero]. Qed.
Lemma Yki i : k <= i <= m -> ozero (Y k i).
Proof.
  induction i as [i IH] using lt_wf_ind. intros Hi. destruct (Nat.eq_dec i k) as [->|Hn]; [apply Yjk; lia|].
  rewrite EY by lia. apply mul_zero_l; [|apply Fr; lia]. rewrite (proj2 (Nat.eqb_neq i k)) by lia. apply add_zero; [exact I|].
  rewrite negsum_gsum. apply gsum_zero; [exact I|]. intros t Ht. destruct (Nat.eq_dec t 0) as [->|Ht0].
  - rewrite Nat.add_0_r. apply mul_zero_l; [apply neg_zero, Ljk; lia|apply FY; lia].
  - apply mul_zero_r; [|apply IH; lia]. assert (F : ofin (L i (k + t))) by (apply FL; lia). destruct (L i (k + t)) as [[]|]; exact F.
Qed.
Lemma oneg_fin a : ofin a -> ofin (oneg a).
Proof. destruct a as [[]|]; intros H; exact H. Qed.
Lemma rr_same i1 : i1 < m -> osame (rr L (sk i1)) (rr L1 i1).
Proof. intros H. cbn beta. rewrite (Lii i1 H). apply osame_refl. Qed.
Lemma Yji j1 i1 : j1 <= i1 < m -> osame (Y (sk j1) (sk i1)) (Y1 j1 i1).
Proof.
  revert j1. induction i1 as [i1 IH] using lt_wf_ind. intros j1 Hi. pose proof (skip_bound k i1 m ltac:(lia)). pose proof (skip_mono_le k j1 i1 ltac:(lia)).
  rewrite EY, EY1 by lia. apply mul_same; [|apply rr_same; lia]. apply add_same; [rewrite skip_eqb; apply osame_refl|]. rewrite !negsum_gsum.
  assert (HT : forall t, t < i1 - j1 -> osame (mul (oneg (L (sk i1) (sk (j1 + t)))) (Y (sk j1) (sk (j1 + t)))) (mul (oneg (L1 i1 (j1 + t))) (Y1 j1 (j1 + t)))).
  { intros t Ht. apply mul_same; [apply neg_same, Lji; lia|apply IH; lia]. }
  destruct (Nat.lt_ge_cases i1 k) as [Hlt|Hge]; [|destruct (Nat.lt_ge_cases j1 k) as [Hlt|Hge2]].
  - rewrite (skip_lt k j1) by lia. rewrite (skip_lt k i1) by lia. apply gsum_same; [exact add_same|apply osame_refl|]. intros t Ht. specialize (HT t Ht).
    rewrite (skip_lt k j1), (skip_lt k i1), (skip_lt k (j1 + t)) in HT by lia. exact HT.
  - rewrite (skip_lt k j1) by lia. rewrite (skip_ge k i1) by lia. replace (Datatypes.S i1 - j1) with (Datatypes.S (i1 - j1)) by lia.
    apply (gsum_drop add add_same add_zero_r (i1 - j1) _ _ _ _ (k - j1)); [lia|apply osame_refl| |].
    + replace (j1 + (k - j1)) with k by lia. apply mul_zero_l; [apply neg_zero, Ljk; lia|apply FY; lia].
    + intros t Ht. specialize (HT t Ht). rewrite skip_plus by lia. rewrite (skip_lt k j1), (skip_ge k i1) in HT by lia. exact HT.
  - rewrite (skip_ge k j1) by lia. rewrite (skip_ge k i1) by lia. replace (Datatypes.S i1 - Datatypes.S j1) with (i1 - j1) by lia.
    apply gsum_same; [exact add_same|apply osame_refl|]. intros t Ht. specialize (HT t Ht). rewrite (skip_ge k j1), (skip_ge k i1), (skip_ge k (j1 + t)) in HT by lia. exact HT.
Qed.
Lemma Xkj j : j <= k -> ozero (X k j).
Proof. intros Hj. pose proof (FX k j ltac:(lia) ltac:(lia)) as F. rewrite EX in F |- * by lia. apply mul_fin in F as [F _]. apply mul_zero_r; [exact F|exact rk_zero]. Qed.
Lemma Xik c : forall i, m - i <= c -> k <= i <= m -> ozero (X i k).
Proof.
  induction c as [|c IH]; intros i Hc Hi.
  - assert (i = m) by lia. subst i. rewrite EX by lia. apply mul_zero_l; [|apply Fr; lia]. apply add_zero; [apply Yki; lia|]. replace (Datatypes.S m - (m + 1)) with 0 by lia. exact I.
  - rewrite EX by lia. apply mul_zero_l; [|apply Fr; lia]. apply add_zero; [apply Yki; lia|]. rewrite negsum_gsum. apply gsum_zero; [exact I|].
    intros t Ht. apply mul_zero_r; [apply oneg_fin, FL; lia|]. rewrite SX by lia. apply IH; lia.
Qed.
Lemma X_zero_col i : i <= m -> ozero (X i k).
Proof. intros Hi. destruct (Nat.le_gt_cases k i) as [H|H]; [apply (Xik (m - i)); lia|]. rewrite SX by lia. apply Xkj. lia. Qed.
Lemma X_zero_row i : i <= m -> ozero (X k i).
Proof. intros Hi. destruct (Nat.le_gt_cases i k) as [H|H]; [apply Xkj; lia|]. rewrite SX by lia. apply X_zero_col. lia. Qed.
Lemma Xij c : forall i1 j1, m - i1 <= c -> j1 <= i1 < m -> osame (X (sk i1) (sk j1)) (X1 i1 j1).
Proof.
  induction c as [|c IH]; intros i1 j1 Hc Hi; [lia|]. pose proof (skip_bound k i1 m ltac:(lia)). pose proof (skip_mono_le k j1 i1 ltac:(lia)).
  rewrite EX, EX1 by lia. apply mul_same; [|apply rr_same; lia]. apply add_same; [apply Yji; lia|]. rewrite !negsum_gsum.
  assert (HT : forall t, t < m - (i1 + 1) -> osame (mul (oneg (L (sk (i1 + 1 + t)) (sk i1))) (X (sk j1) (sk (i1 + 1 + t)))) (mul (oneg (L1 (i1 + 1 + t) i1)) (X1 j1 (i1 + 1 + t)))).
  { intros t Ht. apply mul_same; [apply neg_same, Lji; lia|]. pose proof (skip_bound k (i1 + 1 + t) m ltac:(lia)). rewrite SX, SX1; [apply IH; lia|lia|split; [apply skip_mono_le; lia|lia]]. }
  destruct (Nat.lt_ge_cases i1 k) as [Hlt|Hge].
  - rewrite (skip_lt k i1) by lia. replace (Datatypes.S m - (i1 + 1)) with (Datatypes.S (m - (i1 + 1))) by lia.
    apply (gsum_drop add add_same add_zero_r (m - (i1 + 1)) _ _ _ _ (k - (i1 + 1))); [lia|apply osame_refl| |].
    + replace (i1 + 1 + (k - (i1 + 1))) with k by lia. apply mul_zero_r; [apply oneg_fin, FL; lia|]. apply X_zero_col. rewrite (skip_lt k j1) by lia. lia.
    + intros t Ht. specialize (HT t Ht). rewrite skip_plus by lia. rewrite (skip_lt k i1) in HT by lia. exact HT.
  - rewrite (skip_ge k i1) by lia. replace (Datatypes.S m - (Datatypes.S i1 + 1)) with (m - (i1 + 1)) by lia. apply gsum_same; [exact add_same|apply osame_refl|].
    intros t Ht. specialize (HT t Ht). rewrite (skip_ge k i1), (skip_ge k (i1 + 1 + t)) in HT by lia. exact HT.
Qed.
Lemma X_same i1 j1 : i1 < m -> j1 < m -> osame (X (sk i1) (sk j1)) (X1 i1 j1).
Proof.
  intros Hi Hj. pose proof (skip_bound k i1 m Hi). pose proof (skip_bound k j1 m Hj). destruct (Nat.le_gt_cases j1 i1) as [H1|H1]; [apply (Xij (m - i1)); lia|].
  rewrite SX, SX1; [apply (Xij (m - j1)); lia|lia|]. split; [apply skip_mono_le; lia|lia].
Qed.
End Core.

(** ** the whole update *)
Notation mat := (nat -> nat -> option sf).
Notation rr := (fun (M : mat) i => obind (M i i) (o_recip N)).
Notation unit := (fun i j : nat => Some (if i =? j then sf_one prec else S754_zero false)).
Definition solves (m : nat) (L X Y : mat) : Prop := forall i j, j <= i < m ->
  Y j i = mul (add (unit i j) (b_negsum N j (i - j) (fun t => L i t) (fun t => Y j t))) (rr L i) /\
  X i j = mul (add (Y j i) (b_negsum N (i + 1) (m - (i + 1)) (fun t => L t i) (fun t => X j t))) (rr L i) /\
  X j i = X i j.
Lemma inverse_solves m L X : b_inverse N m L X -> exists Y, solves m L X Y.
Proof. intros [Y H]. exists Y. intros i j Hj. destruct (H i ltac:(lia)) as (r & Er & HE). destruct (HE j ltac:(lia)) as (A & B & D). cbn beta. rewrite Er. auto. Qed.
Lemma dot_fin K f g : ofin (dot N K f g) -> forall t, t < K -> ofin (f t) /\ ofin (g t).
Proof. rewrite dot_gsum. intros H t Ht. apply (gsum_fin add add_fin) in H as [_ H]. apply mul_fin, H, Ht. Qed.
Lemma dot1_fin K f g : ofin (dot1 N K f g) -> forall t, t < K -> ofin (f t) /\ ofin (g t).
Proof.
  destruct K as [|K]; [lia|]. rewrite dot1_gsum. intros H t Ht. apply (gsum_fin add add_fin) in H as [H0 H].
  destruct t as [|t]; [apply mul_fin, H0|]. apply (mul_fin _ _ (H t ltac:(lia))).
Qed.
Lemma dot_drop K k f g f1 g1 : k <= K -> ozero (mul (f k) (g k)) -> (forall i, i < K -> osame (f (skip k i)) (f1 i) /\ osame (g (skip k i)) (g1 i)) -> osame (dot N (S K) f g) (dot N K f1 g1).
Proof.
  intros Hk Z H. rewrite !dot_gsum. apply (gsum_drop add add_same add_zero_r K _ _ _ _ k Hk); [apply osame_refl|exact Z|].
  intros i Hi. destruct (H i Hi). apply mul_same; assumption.
Qed.
Lemma dot_same K f g f1 g1 : (forall i, i < K -> osame (f i) (f1 i) /\ osame (g i) (g1 i)) -> osame (dot N K f g) (dot N K f1 g1).
Proof. intros H. rewrite !dot_gsum. apply gsum_same; [exact add_same|apply osame_refl|]. intros i Hi. destruct (H i Hi). apply mul_same; assumption. Qed.

Section Update.
Variables (n m k : nat) (H R P x y L Si K x' P' : mat).
Hypothesis Hn : 1 <= n.
Hypothesis Hk : k <= m.
Hypothesis U : b_update N n (S m) H R P x y L Si K x' P'.
Hypothesis Rk : R k k = Some (S754_infinity false).
Hypothesis Fx : forall i, i < n -> ofin (x' i 0).
Hypothesis FP : forall i j, i < n -> j < n -> ofin (P' i j).
Notation sk := (skip k).
Notation HP := (b_prod N n H P).
Notation PHt := (b_prodt N n P H).
Notation SS := (fun i j => b_add N (b_prodt N n HP H i j) (R i j)).

Lemma upd_fin :
  (forall i j, i < n -> j <= m -> ofin (K i j)) /\ (forall j, j <= m -> ofin (y j 0)) /\
  (forall i j, i < n -> j <= m -> ofin (PHt i j)) /\ (forall i j, i <= m -> j < n -> ofin (HP i j)) /\
  (forall i j, i <= m -> j <= m -> ofin (Si i j)) /\ exists Y, solves (Datatypes.S m) L Si Y /\
  (forall i, i <= m -> ofin (rr L i)) /\ (forall i l, i < l <= m -> ofin (L l i)) /\ (forall i j, j <= i <= m -> ofin (Y j i)).
Proof.
  destruct U as (S0 & HS & HL & HI & HK & Hx & HPp).
  assert (A : forall i j, i < n -> j <= m -> ofin (K i j) /\ ofin (y j 0)).
  { intros i j Hi Hj. pose proof (Fx i Hi) as F. rewrite Hx in F by exact Hi. apply add_fin in F as [_ F]. apply (dot1_fin _ _ _ F j). lia. }
  assert (B : forall i j l, i < n -> j <= m -> l <= m -> ofin (PHt i l) /\ ofin (Si l j)).
  { intros i j l Hi Hj Hl. destruct (A i j Hi Hj) as [F _]. rewrite HK in F by lia. apply (dot_fin _ _ _ F l). lia. }
  assert (D : forall i j, i <= m -> j < n -> ofin (HP i j)).
  { intros i j Hi Hj. pose proof (FP 0 j ltac:(lia) Hj) as F. rewrite HPp in F by lia. apply sub_fin in F as [_ F]. apply (dot_fin _ _ _ F i). lia. }
  assert (G : forall i j, i <= m -> j <= m -> ofin (Si i j)) by (intros i j Hi Hj; apply (B 0 j i); lia).
  repeat split; [intros i j Hi Hj; apply A; assumption|intros j Hj; apply (A 0); lia|intros i j Hi Hj; apply (B i j j); lia|exact D|exact G|].
  destruct (inverse_solves _ _ _ HI) as [Y HY]. exists Y. split; [exact HY|].
  assert (E : forall i j, j <= i <= m -> ofin (Y j i) /\ ofin (rr L i) /\ ofin (b_negsum N (i + 1) (Datatypes.S m - (i + 1)) (fun t => L t i) (fun t => Si j t))).
  { intros i j Hj. destruct (HY i j ltac:(lia)) as (_ & E & _). pose proof (G i j ltac:(lia) ltac:(lia)) as F. rewrite E in F. apply mul_fin in F as [F F2]. apply add_fin in F as [F F1]. auto. }
  repeat split.
  - intros i Hi. apply (E i 0). lia.
  - intros i l Hl. destruct (E i 0 ltac:(lia)) as (_ & _ & F). rewrite negsum_gsum in F. apply (gsum_fin add add_fin) in F as [_ F].
    specialize (F (l - (i + 1)) ltac:(lia)). replace (i + 1 + (l - (i + 1))) with l in F by lia. apply mul_fin in F as [F _]. apply neg_fin, F.
  - intros i j Hj. apply E, Hj.
Qed.
Lemma b_column_ext mm S0 S0' M i : (forall i j, i < mm -> j < mm -> S0 i j = S0' i j) -> i < mm -> b_column N mm S0 M i -> b_column N mm S0' M i.
Proof.
  intros HE Hi (s & l & d & A & B & D & F & G & J). exists s, l, d. rewrite <- (HE i i) by lia. repeat split; auto.
  - intros. rewrite <- (HE i j) by lia. apply J; assumption.
  - apply J; assumption.
Qed.
Lemma factor_ext mm S0 S0' M : (forall i j, i < mm -> j < mm -> S0 i j = S0' i j) -> b_factor N mm S0 M \/ b_no_factor N mm S0 M -> b_factor N mm S0' M \/ b_no_factor N mm S0' M.
Proof.
  intros HE [[A B]|(i & s & d & A & B & D & F & G & J & J2 & J3)]; [left; split; [|exact B]; intros i Hi; eapply b_column_ext; eauto|].
  right. exists i, s, d. rewrite <- (HE i i) by lia. repeat split; auto.
  - intros i' Hi'. eapply b_column_ext; eauto; lia.
  - intros p q Hp Hq Ho Hne. rewrite <- HE by lia. apply J3; assumption.
Qed.

(** the inverse: row and column k vanish, the rest is the inverse of the reduced problem *)
Lemma upd_inverse S1 L1 X1 : (forall i j, i < m -> j < m -> osame (SS (sk i) (sk j)) (S1 i j)) -> (forall i, i < m -> b_column N m S1 L1 i) -> b_inverse N m L1 X1 ->
  (forall i, i <= m -> ozero (Si i k) /\ ozero (Si k i)) /\ (forall i j, i < m -> j < m -> osame (Si (sk i) (sk j)) (X1 i j)).
Proof.
  intros HS1 HC HI. destruct upd_fin as (_ & Fy & _ & FHP & FSi & Y & HY & Fr & FL & FY). destruct (inverse_solves _ _ _ HI) as [Y1 HY1].
  destruct U as (S0 & HS & HL & _). assert (HSk : pole (SS k k)).
  { cbn beta. rewrite Rk. apply pole_add. intros E.
    destruct (factor_ext _ _ SS _ (fun i j Hi Hj => HS i j Hi Hj) HL) as [[A _]|(i & s & d & A & B & D & F & G & J & J2 & J3)].
    - destruct (A k ltac:(lia)) as (s & l & d & A1 & _). cbn beta in A1. unfold b_add in A1. rewrite E in A1. discriminate A1.
    - destruct (Nat.lt_trichotomy i k) as [Hi|[->|Hi]].
      + destruct (Nat.eq_dec i k); [lia|]. pose proof (J3 k k ltac:(lia) ltac:(lia) (or_intror (Nat.lt_le_incl _ _ Hi)) ltac:(intros Q; injection Q; lia)) as Q.
        cbn beta in Q. unfold b_add in Q. rewrite E in Q. cbn in Q. pose proof (Fr k Hk) as Z. cbn beta in Z. rewrite Q in Z. exact Z.
      + cbn beta in D. unfold b_add in D. rewrite E in D. discriminate D.
      + destruct (B k Hi) as (s1 & l & d1 & A1 & _). cbn beta in A1. unfold b_add in A1. rewrite E in A1. discriminate A1. }
  pose proof (factor_ext _ _ SS _ (fun i j Hi Hj => HS i j Hi Hj) HL) as HL'.
  assert (E1 : forall i j, j <= i <= m -> Y j i = mul (add (unit i j) (b_negsum N j (i - j) (fun t => L i t) (fun t => Y j t))) (rr L i)) by (intros i j Hj; apply (HY i j ltac:(lia))).
  assert (E2 : forall i j, j <= i <= m -> Si i j = mul (add (Y j i) (b_negsum N (i + 1) (Datatypes.S m - (i + 1)) (fun t => L t i) (fun t => Si j t))) (rr L i)) by (intros i j Hj; apply (HY i j ltac:(lia))).
  assert (E3 : forall i j, j <= i <= m -> Si j i = Si i j) by (intros i j Hj; apply (HY i j ltac:(lia))).
  assert (E4 : forall i j, j <= i < m -> Y1 j i = mul (add (unit i j) (b_negsum N j (i - j) (fun t => L1 i t) (fun t => Y1 j t))) (rr L1 i)) by (intros i j Hj; apply (HY1 i j ltac:(lia))).
  assert (E5 : forall i j, j <= i < m -> X1 i j = mul (add (Y1 j i) (b_negsum N (i + 1) (m - (i + 1)) (fun t => L1 t i) (fun t => X1 j t))) (rr L1 i)) by (intros i j Hj; apply (HY1 i j ltac:(lia))).
  assert (E6 : forall i j, j <= i < m -> X1 j i = X1 i j) by (intros i j Hj; apply (HY1 i j ltac:(lia))).
  split.
  - intros i Hi. split; [eapply X_zero_col|eapply X_zero_row]; eassumption.
  - intros i j Hi Hj. eapply X_same; eassumption.
Qed.
Lemma upd_gain S1 L1 X1 : (forall i j, i < m -> j < m -> osame (SS (sk i) (sk j)) (S1 i j)) -> (forall i, i < m -> b_column N m S1 L1 i) -> b_inverse N m L1 X1 ->
  (forall i, i < n -> ozero (K i k)) /\
  (forall H1 i j, (forall i j, i < m -> j < n -> H1 i j = H (sk i) j) -> i < n -> j < m -> osame (K i (sk j)) (b_prod N m (b_prodt N n P H1) X1 i j)).
Proof.
  intros A B D. destruct (upd_inverse S1 L1 X1 A B D) as [Z W]. destruct upd_fin as (_ & _ & FPHt & _). destruct U as (S0 & _ & _ & _ & HK & _). split.
  - intros i Hi. rewrite HK by lia. unfold b_prod. rewrite dot_gsum. apply gsum_zero; [exact I|]. intros t Ht. apply mul_zero_r; [apply FPHt; lia|apply Z; lia].
  - intros H1 i j HH Hi Hj. pose proof (skip_bound k j m Hj). rewrite HK by lia. unfold b_prod. apply (dot_drop m k); [exact Hk| |].
    + apply mul_zero_r; [apply FPHt; lia|]. apply Z. lia.
    + intros t Ht. split; [|apply W; lia]. unfold b_prodt. apply dot_same. intros q Hq. split; [apply osame_refl|]. rewrite HH by lia. apply osame_refl.
Qed.
Lemma upd_alone : m = 0 -> (forall i, i < n -> ozero (K i k)) /\ (forall i, i < n -> osame (x' i 0) (x i 0)) /\ (forall i j, i < n -> j < n -> osame (P' i j) (P i j)).
Proof.
  intros Hm. assert (k = 0) by lia. destruct (upd_gain (fun _ _ => None) (fun _ _ => None) (fun _ _ => None)) as [Z _].
  { intros i j Hi. lia. } { intros i Hi. lia. } { exists (fun _ _ => None). intros i Hi. lia. }
  destruct upd_fin as (_ & Fy & _ & FHP & _). destruct U as (S0 & _ & _ & _ & _ & Hx & HPp). split; [exact Z|]. split.
  - intros i Hi. rewrite Hx by exact Hi. apply add_zero_r. unfold b_prodv. rewrite Hm, dot1_gsum. cbn [gsum]. apply mul_zero_l; [rewrite <- H0; apply Z, Hi|apply Fy; lia].
  - intros i j Hi Hj. rewrite HPp by assumption. apply sub_zero_r. unfold b_prod. rewrite Hm, dot_gsum. cbn [gsum]. apply add_zero; [exact I|]. apply mul_zero_l; [rewrite <- H0; apply Z, Hi|apply FHP; lia].
Qed.
Lemma upd_reduced H1 R1 y1 L1 Si1 K1 x1' P1' : 1 <= m ->
  (forall i j, i < m -> j < n -> H1 i j = H (sk i) j) -> (forall i j, i < m -> j < m -> R1 i j = R (sk i) (sk j)) -> (forall i, i < m -> osame (y (sk i) 0) (y1 i 0)) ->
  b_update N n m H1 R1 P x y1 L1 Si1 K1 x1' P1' ->
  b_factor N m (fun i j => b_add N (b_prodt N n (b_prod N n H1 P) H1 i j) (R1 i j)) L1 ->
  (forall i, i < n -> ozero (K i k)) /\ (forall i j, i < n -> j < m -> osame (K i (sk j)) (K1 i j)) /\
  (forall i, i < n -> osame (x' i 0) (x1' i 0)) /\ (forall i j, i < n -> j < n -> osame (P' i j) (P1' i j)).
Proof.
  intros Hm HH HR Hy (S1 & HS1 & _ & HI1 & HK1 & Hx1 & HP1) [HC _].
  assert (EHP : forall i j, i < m -> osame (HP (sk i) j) (b_prod N n H1 P i j)).
  { intros i j Hi. unfold b_prod. apply dot_same. intros q Hq. rewrite HH by lia. split; apply osame_refl. }
  assert (ES : forall i j, i < m -> j < m -> osame (SS (sk i) (sk j)) (add (b_prodt N n (b_prod N n H1 P) H1 i j) (R1 i j))).
  { intros i j Hi Hj. cbn beta. apply add_same; [|rewrite HR by lia; apply osame_refl]. unfold b_prodt. apply dot_same. intros q Hq. split; [apply EHP; lia|rewrite HH by lia; apply osame_refl]. }
  destruct (upd_gain _ L1 Si1 ES HC HI1) as [Z W].
  assert (EK : forall i j, i < n -> j < m -> osame (K i (sk j)) (K1 i j)) by (intros i j Hi Hj; rewrite HK1 by lia; apply W; [exact HH|lia|lia]).
  destruct upd_fin as (_ & Fy & _ & FHP & _). destruct U as (S0 & _ & _ & _ & _ & Hx & HPp).
  split; [exact Z|]. split; [exact EK|]. split.
  - intros i Hi. rewrite Hx, Hx1 by exact Hi. apply add_same; [apply osame_refl|]. unfold b_prodv.
    eapply osame_trans; [apply dot1_dot; lia|]. eapply osame_trans; [|apply osame_sym, dot1_dot; lia].
    apply (dot_drop m k); [exact Hk|apply mul_zero_l; [apply Z, Hi|apply Fy, Hk]|]. intros t Ht. split; [apply EK; lia|apply Hy, Ht].
  - intros i j Hi Hj. rewrite HPp, HP1 by assumption. apply sub_same; [apply osame_refl|]. unfold b_prod at 1. unfold b_prod at 2.
    apply (dot_drop m k); [exact Hk|apply mul_zero_l; [apply Z, Hi|apply FHP; lia]|]. intros t Ht. split; [apply EK; lia|apply EHP, Ht].
Qed.
End Update.
End Mute.
