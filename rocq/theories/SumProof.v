(** * Proofs for SpecSum.v *)
From Coq Require Import ZArith Reals Lia Lra.
From Flocq Require Import Core BinarySingleNaN Plus_error.
From Verif Require Import Prelude Spec SpecBits Matrix Filter Extended History SpecParam Param FloatNum SpecFloats SpecReal SpecUnit SpecGen SpecSum
  FloatFlocq FloatChol FloatOps FloatFmt UnitProof Wp Kernels Access Chol Inv FilterGen FilterTwo HistGen BitsProof.
Import SpecFloat.
Open Scope nat_scope.

Section Lists.
Context {A : Type}.
Lemma nth_ext (l l' : list A) : (forall p, nth_error l p = nth_error l' p) -> l = l'.
Proof.
  revert l'. induction l as [|a l IH]; intros [|b l'] H; [reflexivity|specialize (H 0); discriminate|specialize (H 0); discriminate|].
  f_equal; [specialize (H 0); cbn in H; congruence|]. apply IH. intros p. exact (H (S p)).
Qed.
Lemma nth_ext2 (R : A -> A -> Prop) (l l' : list A) : length l = length l' ->
  (forall p a b, nth_error l p = Some a -> nth_error l' p = Some b -> R a b) -> Forall2 R l l'.
Proof.
  revert l'. induction l as [|a l IH]; intros [|b l'] HL H; try discriminate HL; constructor.
  - exact (H 0 a b eq_refl eq_refl).
  - apply IH; [injection HL; auto|]. intros p. exact (H (S p)).
Qed.
End Lists.

Section Sum.
Variables (c : cfg) (prec emax : Z).
Hypothesis HF : format_ok prec emax.
#[local] Instance hprec : Prec_gt_0 prec. Proof. unfold Prec_gt_0. destruct HF. lia. Qed.
#[local] Instance hmax : Prec_lt_emax prec emax. Proof. apply HF. Qed.
Notation vf := (valid_binary prec emax).
Notation NN := (sf_num prec emax).
Notation mz := (S754_zero true).

(** ** but_sign *)
Lemma bs_refl x : but_sign x x. Proof. left. reflexivity. Qed.
Lemma bs_add a b p q : but_sign a b -> but_sign p q -> but_sign (SFadd prec emax a p) (SFadd prec emax b q).
Proof.
  intros [<-|(s & s' & -> & ->)] [<-|(t & t' & -> & ->)]; [apply bs_refl| | |].
  - destruct a as [s|s| |s m e]; cbn; try apply bs_refl. right. destruct s, t, t'; cbn; eauto.
  - destruct p as [t|t| |t m e]; cbn; try apply bs_refl. right. destruct s, s', t; cbn; eauto.
  - right. destruct s, s', t, t'; cbn; eauto.
Qed.
Lemma bs_mul a b p q : but_sign a b -> but_sign p q -> but_sign (SFmul prec emax a p) (SFmul prec emax b q).
Proof.
  intros [<-|(s & s' & -> & ->)] [<-|(t & t' & -> & ->)]; [apply bs_refl| | |].
  - destruct a; cbn; try apply bs_refl; right; eauto.
  - destruct p; cbn; try apply bs_refl; right; eauto.
  - right; cbn; eauto.
Qed.
Lemma add_nz a b : vf a = true -> vf b = true -> a <> mz -> SFadd prec emax a b <> mz.
Proof.
  intros Va Vb Ha. destruct a as [[|]|s| |s m e]; [contradiction| |destruct b as [?|t| |]; cbn; try discriminate; destruct s, t; cbn; discriminate|discriminate|].
  - destruct b as [[|]|?| |]; cbn; discriminate.
  - destruct b as [t|t| |t m' e']; [cbn; discriminate|cbn; discriminate|cbn; discriminate|].
    destruct (vf_B prec emax _ Va) as (x & Ex). destruct (vf_B prec emax _ Vb) as (y & Ey). rewrite Ex, Ey, (add_equiv prec emax hprec hmax). intros E.
    assert (Fx : is_finite x = true) by (destruct x; try discriminate Ex; reflexivity).
    assert (Fy : is_finite y = true) by (destruct y; try discriminate Ey; reflexivity).
    pose proof (Bplus_correct prec emax hprec hmax mode_NE x y Fx Fy) as H.
    destruct (Bplus mode_NE x y) as [s0|s0| |s0 m0 e0 H0] eqn:Ep; try discriminate E. injection E as ->.
    assert (Sx : B2R x <> 0%R). { destruct x; try discriminate Ex. intros G. unfold B2R in G. revert G. apply (F2R_neq_0 radix2). destruct s0; discriminate. }
    destruct (Rlt_bool _ _) in H; [|exfalso; destruct H as (H & _); cbn in H; destruct (Bsign x); discriminate H].
    destruct H as (H1 & _ & H3). cbn in H1.
    destruct (Req_dec (B2R x + B2R y) 0) as [E0|E0].
    + rewrite Rcompare_Eq in H3 by exact E0. cbn in H3. destruct (Bsign x) eqn:Sgx, (Bsign y) eqn:Sgy; try discriminate H3.
      assert (Gx : (B2R x < 0)%R). { destruct x as [|?| |sx mx ex Bx]; try discriminate Ex. cbn in Sgx. subst sx. unfold B2R. apply F2R_lt_0. reflexivity. }
      assert (Gy : (B2R y < 0)%R). { destruct y as [|?| |sx mx ex Bx]; try discriminate Ey. cbn in Sgy. subst sx. unfold B2R. apply F2R_lt_0. reflexivity. }
      lra.
    + symmetry in H1. revert H1. change (fexp prec emax) with (FLT_exp (3 - emax - prec) prec).
      apply (round_plus_neq_0 radix2 (FLT_exp (3 - emax - prec) prec) ZnearestE); [apply (generic_format_B2R prec emax x)|apply (generic_format_B2R prec emax y)|exact E0].
Qed.
Lemma add_bs a p q : a <> mz -> but_sign p q -> SFadd prec emax a p = SFadd prec emax a q.
Proof.
  intros Ha [<-|(s & s' & -> & ->)]; [reflexivity|]. destruct a as [[|]|?| |]; try contradiction; try reflexivity. destruct s, s'; reflexivity.
Qed.

(** ** options *)
Definition obs_ (a b : option spec_float) : Prop := match a, b with Some x, Some y => but_sign x y | None, None => True | _, _ => False end.
Lemma obs_refl a : obs_ a a. Proof. destruct a; cbn; auto using bs_refl. Qed.

Section Two.
Variables s1 s2 : bool.
Lemma osum_bs lo cnt f g : (forall k, lo <= k < lo + cnt -> obs_ (f k) (g k)) -> obs_ (osum (NN s1) lo cnt f) (osum (NN s2) lo cnt g).
Proof.
  induction cnt as [|cnt IH]; intros H; cbn [osum].
  - cbn. right. eauto.
  - specialize (IH ltac:(intros; apply H; lia)). pose proof (H (lo + cnt) ltac:(lia)) as Hk.
    destruct (osum (NN s1) lo cnt f), (osum (NN s2) lo cnt g); try contradiction; cbn [obind]; [|exact I].
    destruct (f (lo + cnt)), (g (lo + cnt)); try contradiction; cbn; [apply bs_add; assumption|exact I].
Qed.
Lemma negsum_bs lo cnt (m x x' : nat -> option spec_float) : (forall k, lo <= k < lo + cnt -> obs_ (x k) (x' k)) ->
  obs_ (b_negsum (NN s1) lo cnt m x) (b_negsum (NN s2) lo cnt m x').
Proof.
  intros H. unfold b_negsum. apply osum_bs. intros k Hk. specialize (H k Hk). destruct (m k); cbn [obind]; [|exact I]. cbn.
  destruct (x k), (x' k); try contradiction; cbn; [apply bs_mul; [apply bs_refl|exact H]|exact I].
Qed.
Lemma add_obs a p q : a <> mz -> obs_ p q -> b_add (NN s1) (Some a) p = b_add (NN s2) (Some a) q.
Proof. intros Ha H. destruct p, q; try contradiction; cbn; [f_equal; apply add_bs; assumption|reflexivity]. Qed.

Lemma mul_cong p q r : p = q -> b_mul (NN s1) p r = b_mul (NN s2) q r.
Proof. intros ->. reflexivity. Qed.

Lemma inverse_bs n (L X1 X2 : nat -> nat -> option spec_float) : b_inverse (NN s1) n L X1 -> b_inverse (NN s2) n L X2 ->
  forall i j, i < n -> j < n -> obs_ (X1 i j) (X2 i j).
Proof.
  intros (Y1 & H1) (Y2 & H2).
  assert (HY : forall d i j, i < n -> j <= i -> i - j <= d -> Y1 j i = Y2 j i).
  { induction d as [|d IH]; intros i j Hi Hj Hd; destruct (H1 i Hi) as (r & E1 & G1); destruct (H2 i Hi) as (r' & E2 & G2);
      assert (r' = r) by (cbn [sf_num o_recip] in E1, E2; congruence); subst r'; destruct (G1 j Hj) as (-> & _); destruct (G2 j Hj) as (-> & _).
    - assert (i = j) by lia. subst j. rewrite Nat.sub_diag, Nat.eqb_refl. apply mul_cong, add_obs; [discriminate|]. apply negsum_bs. lia.
    - apply mul_cong, add_obs; [destruct (i =? j); discriminate|]. apply negsum_bs. intros k Hk. rewrite (IH k j) by lia. apply obs_refl. }
  assert (HX : forall d i j, i < n -> j <= i -> n - i <= d -> obs_ (X1 i j) (X2 i j)).
  { induction d as [|d IH]; intros i j Hi Hj Hd; [lia|]. destruct (H1 i Hi) as (r & E1 & G1); destruct (H2 i Hi) as (r' & E2 & G2);
      assert (r' = r) by (cbn [sf_num o_recip] in E1, E2; congruence); subst r'. destruct (G1 j Hj) as (_ & -> & _). destruct (G2 j Hj) as (_ & -> & _).
    assert (HN : obs_ (b_negsum (NN s1) (i + 1) (n - (i + 1)) (fun k => L k i) (fun k => X1 j k)) (b_negsum (NN s2) (i + 1) (n - (i + 1)) (fun k => L k i) (fun k => X2 j k))).
    { apply negsum_bs. intros k Hk. destruct (H1 k ltac:(lia)) as (r1 & _ & F1). destruct (H2 k ltac:(lia)) as (r2 & _ & F2).
      destruct (F1 j ltac:(lia)) as (_ & _ & ->). destruct (F2 j ltac:(lia)) as (_ & _ & ->). apply IH; lia. }
    rewrite (HY (i - j) i j) by lia. destruct (Y2 j i) as [y|]; cbn [b_add obind]; [|exact I].
    destruct (b_negsum (NN s1) _ _ _ _), (b_negsum (NN s2) _ _ _ _); try contradiction; cbn; [|exact I].
    apply bs_mul; [apply bs_add; [apply bs_refl|exact HN]|apply bs_refl]. }
  intros i j Hi Hj. destruct (Nat.le_gt_cases j i) as [Hle|Hlt].
  - apply (HX (n - i) i j); lia.
  - destruct (H1 j Hj) as (r1 & _ & F1). destruct (H2 j Hj) as (r2 & _ & F2). destruct (F1 i ltac:(lia)) as (_ & _ & ->). destruct (F2 i ltac:(lia)) as (_ & _ & ->).
    apply (HX (n - j) j i); lia.
Qed.

(** a sum of products from +0 is not affected by signs of zero factors *)
Lemma dot_bs K f g g' : (forall k a, k < K -> f k = Some a -> vf a = true) -> (forall k a, k < K -> g k = Some a -> vf a = true) -> (forall k, k < K -> obs_ (g k) (g' k)) ->
  dot (NN s1) K f g = dot (NN s2) K f g' /\ forall r, dot (NN s1) K f g = Some r -> vf r = true /\ r <> mz.
Proof.
  intros Hf Hg H. induction K as [|K IH]; cbn [dot].
  - split; [reflexivity|]. intros r E. injection E as <-. split; [reflexivity|discriminate].
  - destruct IH as (E & HR); [intros k a Hk Ek; apply (Hf k a); [lia|exact Ek]|intros k a Hk Ek; apply (Hg k a); [lia|exact Ek]|intros k Hk; apply H; lia|].
    rewrite <- E. destruct (dot (NN s1) K f g) as [acc|]; cbn [obind]; [|split; [reflexivity|discriminate]]. destruct (HR acc eq_refl) as (Va & Na).
    destruct (f K) as [u|] eqn:EF; cbn [obind]; [|split; [reflexivity|discriminate]]. pose proof (Hf K u ltac:(lia) EF) as Vu. specialize (H K ltac:(lia)).
    destruct (g K) as [v|] eqn:EG, (g' K) as [v'|]; try contradiction; cbn [obind]; [|split; [reflexivity|discriminate]].
    pose proof (Hg K v ltac:(lia) EG) as Vv. cbn [obs_] in H. cbn [sf_num o_mul o_add obind]. split.
    + f_equal. apply add_bs; [exact Na|]. apply bs_mul; [apply bs_refl|exact H].
    + intros r Er. injection Er as <-. assert (Vp : vf (SFmul prec emax u v) = true) by (apply vf_mul; auto with typeclass_instances).
      split; [apply vf_add; auto with typeclass_instances|apply add_nz; assumption].
Qed.

Lemma nn_np s : never_panics (NN s).
Proof. unfold never_panics. cbn. repeat split; intros; discriminate. Qed.
Lemma wp_ok {A} s (m : res A) Q : wp m Q (arith_only (NN s)) -> exists a, m = Ok a /\ Q a.
Proof. intros H. destruct m as [a|p]; [exists a; auto|]. destruct H as (_ & H). exfalso. exact (H (nn_np s)). Qed.

Lemma cells_all C (l : list spec_float) i j a : all_in_format prec emax l -> cell C l i j = Some a -> vf a = true.
Proof. intros H E. apply nth_error_In in E. unfold all_in_format in H. rewrite Forall_forall in H. exact (H a E). Qed.

Lemma divmod p R C : p < R * C -> exists i j, i < R /\ j < C /\ p = i * C + j.
Proof.
  intros H. assert (C <> 0) by (intros ->; lia). exists (p / C), (p mod C). pose proof (Nat.div_mod p C ltac:(lia)). pose proof (Nat.mod_upper_bound p C ltac:(lia)).
  split; [apply Nat.div_lt_upper_bound; lia|]. split; lia.
Qed.

Lemma invert_bs n (L v1 v2 : list spec_float) : 1 <= n -> valid c n n L -> valid c n n v1 -> valid c n n v2 -> Forall2 but_sign v1 v2 ->
  exists X1 X2, invert_l_cholesky c (NN s1) n L v1 = Ok X1 /\ invert_l_cholesky c (NN s2) n L v2 = Ok X2 /\ valid c n n X1 /\ valid c n n X2 /\ Forall2 but_sign X1 X2.
Proof.
  intros Hn HL H1 H2 Hv. destruct (wp_ok _ _ _ (invert_wp c (NN s1) n L v1 Hn HL H1)) as (X1 & E1 & V1 & T1).
  destruct (wp_ok _ _ _ (invert_wp c (NN s2) n L v2 Hn HL H2)) as (X2 & E2 & V2 & T2). exists X1, X2. repeat split; auto; try apply V1; try apply V2.
  destruct (invert_bits c (NN s1) n L v1 X1 Hn HL H1 E1) as (_ & B1). destruct (invert_bits c (NN s2) n L v2 X2 Hn HL H2 E2) as (_ & B2).
  pose proof (inverse_bs n _ _ _ B1 B2) as HB. destruct T1 as (L1 & T1), T2 as (L2 & T2). pose proof (f2_len _ _ _ Hv) as LV.
  apply nth_ext2; [lia|]. intros p a b Ea Eb. destruct (Nat.lt_ge_cases p (n * n)) as [Hp|Hp].
  - destruct (divmod p n n Hp) as (i & j & Hi & Hj & ->). specialize (HB i j Hi Hj). unfold cell in HB. rewrite Ea, Eb in HB. exact HB.
  - rewrite T1 in Ea by exact Hp. rewrite T2 in Eb by exact Hp. pose proof (f2_nth _ _ _ p Hv) as G. rewrite Ea, Eb in G. exact G.
Qed.

Lemma mult_bs M K U (a b b' o : list spec_float) : valid c M K a -> valid c K U b -> valid c K U b' -> valid c M U o -> all_in_format prec emax a -> all_in_format prec emax b ->
  Forall2 but_sign b b' -> mult c (NN s1) M K U a b o = mult c (NN s2) M K U a b' o.
Proof.
  intros Va Vb Vb' Vo Fa Fb Hb. destruct (wp_ok _ _ _ (mult_wp c (NN s1) M K U a b o Va Vb Vo)) as (X1 & E1 & V1 & T1).
  destruct (wp_ok _ _ _ (mult_wp c (NN s2) M K U a b' o Va Vb' Vo)) as (X2 & E2 & V2 & T2). rewrite E1, E2. f_equal.
  pose proof (mult_cellwise c (NN s1) M K U a b o Va Vb Vo) as C1. pose proof (mult_cellwise c (NN s2) M K U a b' o Va Vb' Vo) as C2.
  eapply cellwise_out in C1; [|exact Vo|exact E1]. eapply cellwise_out in C2; [|exact Vo|exact E2]. destruct C1 as (_ & _ & C1), C2 as (_ & _ & C2).
  apply nth_ext. intros p. destruct (Nat.lt_ge_cases p (M * U)) as [Hp|Hp].
  - destruct (divmod p M U Hp) as (i & j & Hi & Hj & ->). destruct (C1 i j Hi Hj) as (v & _ & G1). destruct (C2 i j Hi Hj) as (v' & _ & G2). unfold cell in G1, G2 |- *.
    rewrite G1, G2. refine (proj1 (dot_bs K _ _ _ _ _ _)).
    + intros k x _ E. eapply cells_all; [exact Fa|exact E].
    + intros k x _ E. eapply cells_all; [exact Fb|exact E].
    + intros k Hk. pose proof (f2_nth _ _ _ (k * U + j) Hb) as G. unfold obs_, cell. destruct (nth_error b _), (nth_error b' _); auto.
  - destruct T1 as (_ & T1), T2 as (_ & T2). rewrite T1, T2 by exact Hp. reflexivity.
Qed.

Definition res_but {A} (RA : A -> A -> Prop) (m1 m2 : res A) : Prop := match m1, m2 with Ok a, Ok b => RA a b | Panic p, Panic q => p = q | _, _ => False end.

Lemma update_bs n m o o' x P : 1 <= n -> 1 <= m -> ob_valid c n m o -> ob_valid c n m o' -> valid c n 1 x -> valid c n n P -> 
  ob_format prec emax o -> all_in_format prec emax P -> ob_but o o' ->
  res_but (fun a b => ob_but (fst (fst a)) (fst (fst b)) /\ snd (fst b) = snd (fst a) /\ snd b = snd a)
    (update_with_innovation c (NN s1) n m o x P) (update_with_innovation c (NN s2) n m o' x P).
Proof.
  intros Hn Hm (VH & Vz & VR & Vy & VS & VK & VSi & VHP & VPHt & VKHP) Vo' Vx VP (FH & Fz & FR & Fy & FS & FK & FSi & FHP & FPHt & FKHP) FP (E1 & E2 & E3 & E4 & E5 & E6 & HSi & E7 & E8 & E9).
  unfold update_with_innovation. rewrite E1, E3, E4, E5, E6, E7, E8, E9, E2.
  change (mult c (NN s2) m n n (ob_H o) P (ob_HP o)) with (mult c (NN s1) m n n (ob_H o) P (ob_HP o)).
  destruct (wp_ok _ _ _ (mult_wp c (NN s1) m n n _ _ _ VH VP VHP)) as (HP & EHP & VHP' & _). rewrite EHP. cbn [bind].
  change (mult_transb c (NN s2) m n m HP (ob_H o) (ob_S o)) with (mult_transb c (NN s1) m n m HP (ob_H o) (ob_S o)).
  destruct (wp_ok _ _ _ (mult_transb_wp c (NN s1) m n m _ _ _ VHP' VH VS)) as (Sm & ESm & VSm & _). rewrite ESm. cbn [bind].
  change (add_inplace_a c (NN s2) m m Sm (ob_R o)) with (add_inplace_a c (NN s1) m m Sm (ob_R o)).
  destruct (wp_ok _ _ _ (add_inplace_a_wp c (NN s1) m m _ _ VSm VR)) as (Sm2 & ESm2 & VSm2 & _). rewrite ESm2. cbn [bind].
  change (cholesky_decompose_lower c (NN s2) m m Sm2) with (cholesky_decompose_lower c (NN s1) m m Sm2).
  destruct (wp_ok _ _ _ (cholesky_wp c (NN s1) m _ Hm VSm2)) as ((fl & Lm) & ELm & VLm & _). rewrite ELm. cbn [bind].
  assert (VSi' : valid c m m (ob_Sinv o')) by apply Vo'.
  destruct (invert_bs m Lm _ _ Hm VLm VSi VSi' HSi) as (X1 & X2 & EX1 & EX2 & VX1 & VX2 & HX). rewrite EX1, EX2. cbn [bind].
  change (mult_transb c (NN s2) n n m P (ob_H o) (ob_PHt o)) with (mult_transb c (NN s1) n n m P (ob_H o) (ob_PHt o)).
  destruct (wp_ok _ _ _ (mult_transb_wp c (NN s1) n n m _ _ _ VP VH VPHt)) as (PHt & EPHt & VPHt' & _). rewrite EPHt. cbn [bind].
  assert (FM : forall l, all_in_format prec emax l -> Forall2 (same_fmt prec emax) l l) by (intros l; apply fmt_list).
  pose proof (same_fmt_num prec emax s1 HF) as HNN.
  assert (FPHt' : all_in_format prec emax PHt).
  { pose proof (p_mult_transb False (same_fmt prec emax) c (NN s1) (NN s1) HNN n n m _ _ _ _ _ _ (FM _ FP) (FM _ FH) (FM _ FPHt)) as [[[] _]|G].
    rewrite EPHt in G. eapply fmt_list2. exact G. }
  assert (FHP' : all_in_format prec emax HP).
  { pose proof (p_mult False (same_fmt prec emax) c (NN s1) (NN s1) HNN m n n _ _ _ _ _ _ (FM _ FH) (FM _ FP) (FM _ FHP)) as [[[] _]|G].
    rewrite EHP in G. eapply fmt_list2. exact G. }
  assert (FSm : all_in_format prec emax Sm).
  { pose proof (p_mult_transb False (same_fmt prec emax) c (NN s1) (NN s1) HNN m n m _ _ _ _ _ _ (FM _ FHP') (FM _ FH) (FM _ FS)) as [[[] _]|G].
    rewrite ESm in G. eapply fmt_list2. exact G. }
  assert (FSm2 : all_in_format prec emax Sm2).
  { pose proof (p_add_inplace_a False (same_fmt prec emax) c (NN s1) (NN s1) HNN m m _ _ _ _ (FM _ FSm) (FM _ FR)) as [[[] _]|G].
    rewrite ESm2 in G. eapply fmt_list2. exact G. }
  assert (FLm : all_in_format prec emax Lm).
  { pose proof (p_cholesky False (same_fmt prec emax) c (NN s1) (NN s1) HNN m m _ _ (FM _ FSm2)) as [[[] _]|G].
    rewrite ELm in G. eapply fmt_list2. exact (proj2 G). }
  assert (FX1 : all_in_format prec emax X1).
  { pose proof (p_invert False (same_fmt prec emax) c (NN s1) (NN s1) HNN m _ _ _ _ (FM _ FLm) (FM _ FSi)) as [[[] _]|G].
    rewrite EX1 in G. eapply fmt_list2. exact G. }
  rewrite <- (mult_bs n m m PHt X1 X2 (ob_K o) VPHt' VX1 VX2 VK FPHt' FX1 HX).
  destruct (mult c (NN s1) n m m PHt X1 (ob_K o)) as [K|p]; cbn [bind]; [|reflexivity].
  change (multadd_rowvector c (NN s2) n m K (ob_y o) x) with (multadd_rowvector c (NN s1) n m K (ob_y o) x).
  destruct (multadd_rowvector c (NN s1) n m K (ob_y o) x) as [x'|p]; cbn [bind]; [|reflexivity].
  change (mult c (NN s2) m n n (ob_H o) P HP) with (mult c (NN s1) m n n (ob_H o) P HP).
  destruct (mult c (NN s1) m n n (ob_H o) P HP) as [HP2|p]; cbn [bind]; [|reflexivity].
  change (mult c (NN s2) n m n K HP2 (ob_KHP o)) with (mult c (NN s1) n m n K HP2 (ob_KHP o)).
  destruct (mult c (NN s1) n m n K HP2 (ob_KHP o)) as [KHP|p]; cbn [bind]; [|reflexivity].
  change (sub_inplace_a c (NN s2) n n P KHP) with (sub_inplace_a c (NN s1) n n P KHP).
  destruct (sub_inplace_a c (NN s1) n n P KHP) as [P'|p]; cbn [bind]; [|reflexivity].
  cbn. unfold ob_but. cbn. repeat split. exact HX.
Qed.

Notation FM := (Forall2 (within (in_format prec emax))).
Lemma fm l : all_in_format prec emax l -> FM l l.
Proof. induction 1; constructor; auto. split; auto. Qed.
Lemma mf l l' : FM l l' -> all_in_format prec emax l'.
Proof. induction 1 as [|a b l l' (-> & H) _ IH]; constructor; auto. Qed.
Lemma ob_fm o : SpecParam.ob_rel (within (in_format prec emax)) o o -> ob_format prec emax o.
Proof. intros (H1 & H2 & H3 & H4 & H5 & H6 & H7 & H8 & H9 & H10). repeat split; eapply mf; eassumption. Qed.
Notation HNN := (float_closed prec emax s1 HF).

Lemma set_y_but o o' y : ob_but o o' -> ob_but (set_y o y) (set_y o' y).
Proof. intros (E1 & E2 & E3 & E4 & E5 & E6 & HSi & E7 & E8 & E9). unfold ob_but, set_y. cbn. auto 12. Qed.
Lemma set_y_fmt o y : ob_format prec emax o -> all_in_format prec emax y -> ob_format prec emax (set_y o y).
Proof. intros (FH & Fz & FR & Fy & FS & FK & FSi & FHP & FPHt & FKHP) H. unfold ob_format, set_y. cbn. auto 12. Qed.
Lemma set_y_val n m o (y : list spec_float) : ob_valid c n m o -> valid c m 1 y -> ob_valid c n m (set_y o y).
Proof. intros (VH & Vz & VR & Vy & VS & VK & VSi & VHP & VPHt & VKHP) H. unfold ob_valid, set_y. cbn. tauto. Qed.

Lemma but_valid n m o o' : ob_valid c n m o -> ob_but o o' -> ob_valid c n m o'.
Proof.
  intros (VH & Vz & VR & Vy & VS & VK & VSi & VHP & VPHt & VKHP) (E1 & E2 & E3 & E4 & E5 & E6 & HSi & E7 & E8 & E9).
  unfold ob_valid. rewrite E1, E2, E3, E4, E5, E6, E7, E8, E9. pose proof (f2_len _ _ _ HSi) as EL.
  pose proof (valid_length c m m (ob_Sinv o) (ob_Sinv o') VSi (eq_sym EL)). tauto.
Qed.

Notation two_but := (res_but (fun a b => ob_but (fst a) (fst b) /\ snd b = snd a)).
Lemma correct_bs n m o o' f : 1 <= n -> 1 <= m -> ob_valid c n m o -> kf_valid c n f -> SpecParam.ob_rel (within (in_format prec emax)) o o ->
  SpecParam.kf_rel (within (in_format prec emax)) f f -> ob_but o o' -> two_but (correct c (NN s1) n m o f) (correct c (NN s2) n m o' f).
Proof.
  intros Hn Hm Vo (VA & Vx & VP & VQ & Vpx & VtP) Fo (GA & Gx & GP & GQ & Gpx & GtP) HB. pose proof (but_valid n m o o' Vo HB) as Vo'.
  unfold correct, obs_correct. pose proof HB as (E1 & E2 & E3 & E4 & E5 & E6 & HSi & E7 & E8 & E9). rewrite E1, E2, E4.
  pose proof (ob_fm o Fo) as Ff. pose proof Ff as (FH & Fz & FR & Fy & _).
  pose proof Vo as (VH & Vz & VR & Vy & _).
  change (mult_rowvector c (NN s2) m n (ob_H o) (kf_x f) (ob_y o)) with (mult_rowvector c (NN s1) m n (ob_H o) (kf_x f) (ob_y o)).
  destruct (wp_ok _ _ _ (mult_rowvector_wp c (NN s1) m n _ _ _ Hn VH Vx Vy)) as (y & Ey & Vy1 & _).
  pose proof (p_mult_rowvector False _ c (NN s1) (NN s1) HNN m n _ _ _ _ _ _ (fm _ FH) Gx (fm _ Fy)) as [[[] _]|G1]. rewrite Ey in G1 |- *. cbn [bind].
  change (sub_inplace_b c (NN s2) m 1 (ob_z o) y) with (sub_inplace_b c (NN s1) m 1 (ob_z o) y).
  destruct (wp_ok _ _ _ (sub_inplace_b_wp c (NN s1) m 1 _ _ Vz Vy1)) as (y2 & Ey2 & Vy2 & _).
  pose proof (p_sub_inplace_b False _ c (NN s1) (NN s1) HNN m 1 _ _ _ _ (fm _ Fz) G1) as [[[] _]|G2]. rewrite Ey2 in G2 |- *. cbn [bind].
  pose proof (update_bs n m (set_y o y2) (set_y o' y2) (kf_x f) (kf_P f) Hn Hm (set_y_val n m o y2 Vo Vy2) (set_y_val n m o' y2 Vo' Vy2) Vx VP
    (set_y_fmt o y2 Ff (mf _ _ G2)) (mf _ _ GP) (set_y_but o o' y2 HB)) as H.
  destruct (update_with_innovation c (NN s1) n m (set_y o y2) (kf_x f) (kf_P f)) as [((a & x1) & P1)|], (update_with_innovation c (NN s2) n m (set_y o' y2) (kf_x f) (kf_P f)) as [((b & x2) & P2)|]; try contradiction H; [|exact H].
  cbn in H |- *. destruct H as (H1 & -> & ->). split; [exact H1|reflexivity].
Qed.
Lemma correct_nl_bs n m h o o' f : 1 <= n -> 1 <= m -> ob_valid c n m o -> kf_valid c n f -> closure_ok c (NN s1) m n h -> fun_rel False (within (in_format prec emax)) h h ->
  SpecParam.ob_rel (within (in_format prec emax)) o o ->
  SpecParam.kf_rel (within (in_format prec emax)) f f -> ob_but o o' -> two_but (correct_nonlinear c (NN s1) n m h o f) (correct_nonlinear c (NN s2) n m h o' f).
Proof.
  intros Hn Hm Vo (VA & Vx & VP & VQ & Vpx & VtP) Hh Fh Fo (GA & Gx & GP & GQ & Gpx & GtP) HB. pose proof (but_valid n m o o' Vo HB) as Vo'.
  unfold correct_nonlinear, obs_correct_nonlinear. pose proof HB as (E1 & E2 & E3 & E4 & E5 & E6 & HSi & E7 & E8 & E9). rewrite E2, E4.
  pose proof (ob_fm o Fo) as Ff. pose proof Ff as (FH & Fz & FR & Fy & _).
  pose proof Vo as (VH & Vz & VR & Vy & _).
  destruct (wp_ok _ _ _ (Hh (kf_x f) (ob_y o) Vx Vy)) as (y & Ey & Vy1).
  pose proof (Fh _ _ _ _ Gx (fm _ Fy)) as [[[] _]|G1]. rewrite Ey in G1 |- *. cbn [bind].
  change (sub_inplace_b c (NN s2) m 1 (ob_z o) y) with (sub_inplace_b c (NN s1) m 1 (ob_z o) y).
  destruct (wp_ok _ _ _ (sub_inplace_b_wp c (NN s1) m 1 _ _ Vz Vy1)) as (y2 & Ey2 & Vy2 & _).
  pose proof (p_sub_inplace_b False _ c (NN s1) (NN s1) HNN m 1 _ _ _ _ (fm _ Fz) G1) as [[[] _]|G2]. rewrite Ey2 in G2 |- *. cbn [bind].
  pose proof (update_bs n m (set_y o y2) (set_y o' y2) (kf_x f) (kf_P f) Hn Hm (set_y_val n m o y2 Vo Vy2) (set_y_val n m o' y2 Vo' Vy2) Vx VP
    (set_y_fmt o y2 Ff (mf _ _ G2)) (mf _ _ GP) (set_y_but o o' y2 HB)) as H.
  destruct (update_with_innovation c (NN s1) n m (set_y o y2) (kf_x f) (kf_P f)) as [((a & x1) & P1)|], (update_with_innovation c (NN s2) n m (set_y o' y2) (kf_x f) (kf_P f)) as [((b & x2) & P2)|]; try contradiction H; [|exact H].
  cbn in H |- *. destruct H as (H1 & -> & ->). split; [exact H1|reflexivity].
Qed.

Lemma step_bs n w v o : world_ok c n w -> world_format prec emax w -> world_but w v -> op_safe c (NN s1) n (ob_dims w) o -> op_format prec emax o ->
  res_but world_but (step c (NN s1) n w o) (step c (NN s2) n v o).
Proof.
  intros (Hn & (Vk & Vc & Vo) & Hd) (Fk & Fc & Fo) (Ek & Ec & Eo) Hs Hf.
  pose proof (fun j => f2_nth _ _ _ j Eo) as No.
  assert (KF : forall m, res_but world_but (bind m (fun f => Ok (set_kf w f))) (bind m (fun f => Ok (set_kf v f)))).
  { intros [f|p]; cbn; [|reflexivity]. split; [reflexivity|]. split; assumption. }
  assert (OB : forall f j m a b, ob_but a b -> world_but (set_ob (set_kf w f) j (m, a)) (set_ob (set_kf v f) j (m, b))).
  { intros f j m a b Hab. split; [reflexivity|]. split; [exact Ec|]. cbn. apply Forall2_upd; [exact Eo|]. split; [reflexivity|exact Hab]. }
  assert (OB2 : forall j m a b, ob_but a b -> world_but (set_ob w j (m, a)) (set_ob v j (m, b))).
  { intros j m a b Hab. split; [exact Ek|]. split; [exact Ec|]. cbn. apply Forall2_upd; [exact Eo|]. split; [reflexivity|exact Hab]. }
  assert (CT : forall f i p, world_but (set_ct (set_kf w f) i p) (set_ct (set_kf v f) i p)).
  { intros f i p. split; [reflexivity|]. split; [cbn; rewrite Ec; reflexivity|exact Eo]. }
  assert (CT2 : forall i p, world_but (set_ct w i p) (set_ct v i p)).
  { intros i p. split; [exact Ek|]. split; [cbn; rewrite Ec; reflexivity|exact Eo]. }
  assert (ID : world_but w v) by (split; [|split]; assumption).
  destruct o as [|lam|h|lam h|i|j|j h|l|l|l|l|i l|i l|i l|j l|j l|j l]; cbn [step]; rewrite ?Ek, ?Ec.
  - change (predict c (NN s2) n (w_kf w)) with (predict c (NN s1) n (w_kf w)). apply KF.
  - change (predict_tuned c (NN s2) n lam (w_kf w)) with (predict_tuned c (NN s1) n lam (w_kf w)). apply KF.
  - change (predict_nonlinear c (NN s2) n h (w_kf w)) with (predict_nonlinear c (NN s1) n h (w_kf w)). apply KF.
  - change (predict_tuned_nonlinear c (NN s2) n lam h (w_kf w)) with (predict_tuned_nonlinear c (NN s1) n lam h (w_kf w)). apply KF.
  - destruct (nth_error (w_ct w) i) as [(m & k)|]; [|exact ID]. change (control_ c (NN s2) n m k (w_kf w)) with (control_ c (NN s1) n m k (w_kf w)).
    destruct (control_ c (NN s1) n m k (w_kf w)) as [(k' & f')|p]; cbn [bind res_but]; [|reflexivity]. apply CT.
  - specialize (No j). destruct (nth_error (w_ob w) j) as [(m & b)|] eqn:E, (nth_error (w_ob v) j) as [(m' & b')|]; try contradiction; [|exact ID].
    destruct No as (Em & Hb). cbn in Em, Hb. subst m'.
    pose proof (HistGen.Forall_nth _ _ _ _ Vo E) as Vb. cbn [fst snd] in Vb. pose proof (HistGen.Forall_nth _ _ _ _ Hd (ob_dims_nth _ _ _ _ E)) as Hm. cbn in Hm.
    pose proof (f2_nth _ _ _ j Fo) as Fb. rewrite E in Fb. destruct Fb as (_ & Fb). cbn [snd] in Fb.
    pose proof (correct_bs n m b b' (w_kf w) Hn Hm Vb Vk Fb Fk Hb) as H.
    destruct (correct c (NN s1) n m b (w_kf w)) as [(b1 & f1)|], (correct c (NN s2) n m b' (w_kf w)) as [(b2 & f2)|]; try contradiction H; [|exact H].
    cbn in H. destruct H as (H & ->). cbn [bind res_but]. apply OB, H.
  - specialize (No j). destruct (nth_error (w_ob w) j) as [(m & b)|] eqn:E, (nth_error (w_ob v) j) as [(m' & b')|]; try contradiction; [|exact ID].
    destruct No as (Em & Hb). cbn in Em, Hb. subst m'.
    pose proof (HistGen.Forall_nth _ _ _ _ Vo E) as Vb. cbn [fst snd] in Vb. pose proof (HistGen.Forall_nth _ _ _ _ Hd (ob_dims_nth _ _ _ _ E)) as Hm. cbn in Hm.
    pose proof (f2_nth _ _ _ j Fo) as Fb. rewrite E in Fb. destruct Fb as (_ & Fb). cbn [snd] in Fb.
    cbn [op_safe] in Hs. rewrite (ob_dims_nth _ _ _ _ E) in Hs.
    assert (Fh : fun_rel False (within (in_format prec emax)) h h) by (inversion Hf; assumption).
    pose proof (correct_nl_bs n m h b b' (w_kf w) Hn Hm Vb Vk Hs Fh Fb Fk Hb) as H.
    destruct (correct_nonlinear c (NN s1) n m h b (w_kf w)) as [(b1 & f1)|], (correct_nonlinear c (NN s2) n m h b' (w_kf w)) as [(b2 & f2)|]; try contradiction H; [|exact H].
    cbn in H. destruct H as (H & ->). cbn [bind res_but]. apply OB, H.
  - split; [reflexivity|split; assumption].
  - split; [reflexivity|split; assumption].
  - split; [reflexivity|split; assumption].
  - split; [reflexivity|split; assumption].
  - destruct (nth_error (w_ct w) i) as [(m & k)|]; [apply CT2|exact ID].
  - destruct (nth_error (w_ct w) i) as [(m & k)|]; [apply CT2|exact ID].
  - destruct (nth_error (w_ct w) i) as [(m & k)|]; [apply CT2|exact ID].
  - specialize (No j). destruct (nth_error (w_ob w) j) as [(m & b)|] eqn:E, (nth_error (w_ob v) j) as [(m' & b')|]; try contradiction; [|exact ID].
    destruct No as (Em & E1 & E2 & E3 & E4 & E5 & E6 & HSi & E7 & E8 & E9). cbn in *. subst m'. apply OB2. unfold ob_but; cbn. rewrite E1. auto 12.
  - specialize (No j). destruct (nth_error (w_ob w) j) as [(m & b)|] eqn:E, (nth_error (w_ob v) j) as [(m' & b')|]; try contradiction; [|exact ID].
    destruct No as (Em & E1 & E2 & E3 & E4 & E5 & E6 & HSi & E7 & E8 & E9). cbn in *. subst m'. apply OB2. unfold ob_but; cbn. rewrite E2. auto 12.
  - specialize (No j). destruct (nth_error (w_ob w) j) as [(m & b)|] eqn:E, (nth_error (w_ob v) j) as [(m' & b')|]; try contradiction; [|exact ID].
    destruct No as (Em & E1 & E2 & E3 & E4 & E5 & E6 & HSi & E7 & E8 & E9). cbn in *. subst m'. apply OB2. unfold ob_but; cbn. rewrite E3. auto 12.
Qed.

Theorem run_bs n os : forall w v, world_ok c n w -> world_format prec emax w -> world_but w v ->
  Forall (op_safe c (NN s1) n (ob_dims w)) os -> Forall (op_format prec emax) os -> 
  exists w' v', run c (NN s1) n w os = Ok w' /\ run c (NN s2) n v os = Ok v' /\ world_but w' v'.
Proof.
  induction os as [|o os IH]; intros w v Hw Fw HB Hs Hf; cbn [run]; [eauto|].
  inversion Hs as [|? ? Hs1 Hs2]; subst. inversion Hf as [|? ? Hf1 Hf2]; subst.
  pose proof (step_bs n w v o Hw Fw HB Hs1 Hf1) as H. destruct (wp_ok _ _ _ (step_wp c (NN s1) n w o Hw Hs1)) as (w1 & E1 & Hw1 & (_ & Hd) & _).
  rewrite E1 in H |- *. cbn [bind]. destruct (step c (NN s2) n v o) as [v1|]; [|contradiction H]. cbn [bind].
  pose proof (p_step False _ c (NN s1) (NN s1) HNN n w w o o Fw Hf1) as [[[] _]|F1]. rewrite E1 in F1.
  apply IH; auto. rewrite Hd. exact Hs2.
Qed.
End Two.

Lemma world_but_refl w : world_but w w.
Proof.
  split; [reflexivity|]. split; [reflexivity|]. apply Forall2_refl. intros a. split; [reflexivity|]. unfold ob_but. repeat split.
  apply Forall2_refl, bs_refl.
Qed.
Theorem run_sum s1 s2 n w os : world_ok c n w -> world_format prec emax w ->
  Forall (op_safe c (NN s1) n (ob_dims w)) os -> Forall (op_format prec emax) os -> 
  exists w' v', run c (NN s1) n w os = Ok w' /\ run c (NN s2) n w os = Ok v' /\ world_but w' v'.
Proof. intros. apply run_bs; auto using world_but_refl. Qed.
End Sum.
