(** * predict, control, correct for any element type: panics, frames, two-run lemmas *)
From Verif Require Import Spec Matrix Filter Extended SpecFilter Wp Kernels Access Chol Inv.

Section Kernels2.
Context {T : Type} (c : cfg) (N : num T).

Lemma mrel_refl R C (a : list T) : valid c R C a -> mrel c R C a a.
Proof. intros H. split; [auto|split; [auto|]]. intros p Hp; reflexivity. Qed.

Lemma mrel_cell R C (a b : list T) i j : mrel c R C a b -> i < R -> j < C -> cell C a i j = cell C b i j.
Proof. intros (_ & _ & H) Hi Hj. apply H. apply idx_lt; auto. Qed.

Lemma cellwise_two R C (old1 old2 : list T) f1 f2 r1 r2 :
  valid c R C old1 -> valid c R C old2 -> cellwise R C old1 f1 r1 -> cellwise R C old2 f2 r2 ->
  (forall i j v1 v2, i < R -> j < C -> cell C old1 i j = Some v1 -> cell C old2 i j = Some v2 -> f1 i j v1 = f2 i j v2) ->
  rres (mrel c R C) r1 r2.
Proof.
  intros H1 H2 C1 C2 Hf.
  assert (Hno : forall (o1 o2 : list T) g1 g2 r e, valid c R C o1 -> valid c R C o2 -> 
     (forall i j v1 v2, i < R -> j < C -> cell C o1 i j = Some v1 -> cell C o2 i j = Some v2 -> g1 i j v1 = g2 i j v2) ->
     cellwise R C o1 g1 (Ok r) -> cellwise R C o2 g2 (Panic e) -> False).
  { intros o1 o2 g1 g2 r e V1 V2 Hg (L1 & L2 & L3) (He & i & j & v & Hi & Hj & Hv & Hn).
    destruct (cell_some c R C o1 i j V1 Hi Hj) as (w & Hw & _).
    specialize (L2 i j w Hi Hj Hw). rewrite (Hg i j w v Hi Hj Hw Hv), Hn in L2.
    assert (Vr : valid c R C r) by exact (valid_length c R C o1 r V1 L1).
    destruct (cell_some c R C r i j Vr Hi Hj) as (u & Hu & _). congruence. }
  destruct r1 as [n1|e1], r2 as [n2|e2]; cbn [rres].
  - destruct C1 as (L1 & A1 & B1), C2 as (L2 & A2 & B2).
    split; [exact (valid_length c R C old1 n1 H1 L1)|]. split; [exact (valid_length c R C old2 n2 H2 L2)|].
    intros p Hp. assert (HC : 0 < C) by (destruct C; lia).
    destruct (idx_split p C HC) as (i & j & -> & Hj). assert (Hi : i < R) by nia.
    destruct (cell_some c R C old1 i j H1 Hi Hj) as (v1 & Hv1 & _).
    destruct (cell_some c R C old2 i j H2 Hi Hj) as (v2 & Hv2 & _).
    specialize (A1 i j v1 Hi Hj Hv1). specialize (A2 i j v2 Hi Hj Hv2). unfold cell in A1, A2. rewrite A1, A2.
    apply Hf; auto.
  - eapply Hno; [exact H1|exact H2|exact Hf|exact C1|exact C2].
  - eapply Hno; [exact H2|exact H1| |exact C2|exact C1]. intros; symmetry; eapply Hf; eauto.
  - destruct C1 as [-> _], C2 as [-> _]. reflexivity.
Qed.

Lemma dot_ext K f g f' g' : (forall k, k < K -> f k = f' k) -> (forall k, k < K -> g k = g' k) -> dot N K f g = dot N K f' g'.
Proof.
  intros Hf Hg. induction K as [|K IH]; [reflexivity|]. cbn [dot].
  rewrite IH by (intros; auto). rewrite Hf, Hg by lia. reflexivity.
Qed.
Lemma dot1_ext K f g f' g' : (forall k, k < K -> f k = f' k) -> (forall k, k < K -> g k = g' k) -> dot1 N K f g = dot1 N K f' g'.
Proof.
  destruct K as [|K']; [reflexivity|]. induction K' as [|K' IH]; intros Hf Hg.
  - cbn [dot1]. rewrite Hf, Hg by lia. reflexivity.
  - rewrite !dot1_S. rewrite IH by (intros; auto). rewrite Hf, Hg by lia. reflexivity.
Qed.

Lemma mult_two M K U (a1 a2 b1 b2 cm1 cm2 : list T) :
  mrel c M K a1 a2 -> mrel c K U b1 b2 -> valid c M U cm1 -> valid c M U cm2 ->
  rres (mrel c M U) (mult c N M K U a1 b1 cm1) (mult c N M K U a2 b2 cm2).
Proof.
  intros Ha Hb H1 H2. eapply cellwise_two; [exact H1|exact H2|apply mult_cellwise; auto; [apply Ha|apply Hb]|apply mult_cellwise; auto; [apply Ha|apply Hb]|].
  intros i j w1 w2 Hi Hj E1 E2. cbn beta. apply dot_ext; intros k Hk; eapply mrel_cell; eauto.
Qed.

Lemma mult_transb_two M K U (a1 a2 b1 b2 cm1 cm2 : list T) :
  mrel c M K a1 a2 -> mrel c U K b1 b2 -> valid c M U cm1 -> valid c M U cm2 ->
  rres (mrel c M U) (mult_transb c N M K U a1 b1 cm1) (mult_transb c N M K U a2 b2 cm2).
Proof.
  intros Ha Hb H1 H2. eapply cellwise_two; [exact H1|exact H2|apply mult_transb_cellwise; auto; [apply Ha|apply Hb]|apply mult_transb_cellwise; auto; [apply Ha|apply Hb]|].
  intros i j w1 w2 Hi Hj E1 E2. cbn beta. apply dot_ext; intros k Hk; eapply mrel_cell; eauto.
Qed.

Lemma multscale_transb_two s M K U (a1 a2 b1 b2 cm1 cm2 : list T) :
  mrel c M K a1 a2 -> mrel c U K b1 b2 -> valid c M U cm1 -> valid c M U cm2 ->
  rres (mrel c M U) (multscale_transb c N s M K U a1 b1 cm1) (multscale_transb c N s M K U a2 b2 cm2).
Proof.
  intros Ha Hb H1 H2. eapply cellwise_two; [exact H1|exact H2|apply multscale_transb_cellwise; auto; [apply Ha|apply Hb]|apply multscale_transb_cellwise; auto; [apply Ha|apply Hb]|].
  intros i j w1 w2 Hi Hj E1 E2. cbn beta. f_equal. apply dot_ext; intros k Hk; eapply mrel_cell; eauto.
Qed.

Lemma cell_eq_some (a b : list T) C i j v1 v2 : cell C a i j = cell C b i j ->
  cell C a i j = Some v1 -> cell C b i j = Some v2 -> v1 = v2.
Proof. congruence. Qed.

Lemma multadd_transb_two M K U (a1 a2 b1 b2 cm1 cm2 : list T) :
  mrel c M K a1 a2 -> mrel c U K b1 b2 -> mrel c M U cm1 cm2 ->
  rres (mrel c M U) (multadd_transb c N M K U a1 b1 cm1) (multadd_transb c N M K U a2 b2 cm2).
Proof.
  intros Ha Hb Hc. pose proof Hc as (H1 & H2 & _).
  eapply cellwise_two; [exact H1|exact H2|apply multadd_transb_cellwise; auto; [apply Ha|apply Hb]|apply multadd_transb_cellwise; auto; [apply Ha|apply Hb]|].
  intros i j v1 v2 Hi Hj E1 E2. rewrite (cell_eq_some _ _ _ _ _ _ _ (mrel_cell _ _ _ _ _ _ Hc Hi Hj) E1 E2).
  f_equal. apply dot_ext; intros k Hk; eapply mrel_cell; eauto.
Qed.

Lemma mult_rowvector_two M K (a1 a2 x1 x2 cm1 cm2 : list T) : 1 <= K ->
  mrel c M K a1 a2 -> mrel c K 1 x1 x2 -> valid c M 1 cm1 -> valid c M 1 cm2 ->
  rres (mrel c M 1) (mult_rowvector c N M K a1 x1 cm1) (mult_rowvector c N M K a2 x2 cm2).
Proof.
  intros HK Ha Hb H1 H2. eapply cellwise_two; [exact H1|exact H2|apply mult_rowvector_cellwise; auto; [apply Ha|apply Hb]|apply mult_rowvector_cellwise; auto; [apply Ha|apply Hb]|].
  intros i j w1 w2 Hi Hj E1 E2. cbn beta. apply dot1_ext; intros k Hk; eapply mrel_cell; eauto.
Qed.

Lemma multadd_rowvector_two M K (a1 a2 x1 x2 cm1 cm2 : list T) : 1 <= K ->
  mrel c M K a1 a2 -> mrel c K 1 x1 x2 -> mrel c M 1 cm1 cm2 ->
  rres (mrel c M 1) (multadd_rowvector c N M K a1 x1 cm1) (multadd_rowvector c N M K a2 x2 cm2).
Proof.
  intros HK Ha Hb Hc. pose proof Hc as (H1 & H2 & _).
  eapply cellwise_two; [exact H1|exact H2|apply multadd_rowvector_cellwise; auto; [apply Ha|apply Hb]|apply multadd_rowvector_cellwise; auto; [apply Ha|apply Hb]|].
  intros i j v1 v2 Hi Hj E1 E2. rewrite (cell_eq_some _ _ _ _ _ _ _ (mrel_cell _ _ _ _ _ _ Hc Hi Hj) E1 E2).
  f_equal. apply dot1_ext; intros k Hk; eapply mrel_cell; eauto.
Qed.

Lemma copy_to_two R C (a1 a2 b1 b2 : list T) : 1 <= R -> 1 <= C ->
  mrel c R C a1 a2 -> valid c R C b1 -> valid c R C b2 ->
  rres (mrel c R C) (copy_to c R C a1 b1) (copy_to c R C a2 b2).
Proof.
  intros HR HC Ha H1 H2. eapply cellwise_two; [exact H1|exact H2|apply copy_to_cellwise; auto; apply Ha|apply copy_to_cellwise; auto; apply Ha|].
  intros i j w1 w2 Hi Hj E1 E2. cbn beta. eapply mrel_cell; eauto.
Qed.

Ltac inplace Ha Hb L :=
  let H1 := fresh in let H2 := fresh in
  pose proof Ha as (H1 & H2 & _);
  eapply cellwise_two; [exact H1|exact H2|apply L; auto; apply Hb|apply L; auto; apply Hb|];
  let i := fresh "i" in let j := fresh "j" in let v1 := fresh in let v2 := fresh in let Hi := fresh in let Hj := fresh in let E1 := fresh in let E2 := fresh in
  intros i j v1 v2 Hi Hj E1 E2; rewrite (cell_eq_some _ _ _ _ _ _ _ (mrel_cell _ _ _ _ _ _ Ha Hi Hj) E1 E2);
  rewrite (mrel_cell _ _ _ _ _ _ Hb Hi Hj); reflexivity.

Lemma add_inplace_a_two R C (a1 a2 b1 b2 : list T) : mrel c R C a1 a2 -> mrel c R C b1 b2 ->
  rres (mrel c R C) (add_inplace_a c N R C a1 b1) (add_inplace_a c N R C a2 b2).
Proof. intros Ha Hb. inplace Ha Hb @add_inplace_a_cellwise. Qed.
Lemma sub_inplace_a_two R C (a1 a2 b1 b2 : list T) : mrel c R C a1 a2 -> mrel c R C b1 b2 ->
  rres (mrel c R C) (sub_inplace_a c N R C a1 b1) (sub_inplace_a c N R C a2 b2).
Proof. intros Ha Hb. inplace Ha Hb @sub_inplace_a_cellwise. Qed.
Lemma add_inplace_b_two R C (a1 a2 b1 b2 : list T) : mrel c R C a1 a2 -> mrel c R C b1 b2 ->
  rres (mrel c R C) (add_inplace_b c N R C a1 b1) (add_inplace_b c N R C a2 b2).
Proof. intros Ha Hb. inplace Hb Ha @add_inplace_b_cellwise. Qed.
Lemma sub_inplace_b_two R C (a1 a2 b1 b2 : list T) : mrel c R C a1 a2 -> mrel c R C b1 b2 ->
  rres (mrel c R C) (sub_inplace_b c N R C a1 b1) (sub_inplace_b c N R C a2 b2).
Proof. intros Ha Hb. inplace Hb Ha @sub_inplace_b_cellwise. Qed.

Lemma cholesky_two n (a1 a2 : list T) : 1 <= n -> mrel c n n a1 a2 ->
  rres (fun r1 r2 => fst r1 = fst r2 /\ mrel c n n (snd r1) (snd r2))
    (cholesky_decompose_lower c N n n a1) (cholesky_decompose_lower c N n n a2).
Proof.
  intros Hn (H1 & H2 & HS). eapply rres_mono; [apply (cholesky_two_runs c N (fun p => p < n * n)); auto|].
  - intros p (i & j & -> & Hij). apply idx_lt; lia.
  - intros [f1 l1] [f2 l2]; cbn [fst snd]. intros (Hf & L1 & L2 & HA & _). split; [auto|].
    split; [exact (valid_length c n n a1 l1 H1 L1)|]. split; [exact (valid_length c n n a2 l2 H2 L2)|]. exact HA.
Qed.

Lemma invert_two n (m1 m2 v1 v2 : list T) : 1 <= n -> mrel c n n m1 m2 -> valid c n n v1 -> valid c n n v2 ->
  rres (mrel c n n) (invert_l_cholesky c N n m1 v1) (invert_l_cholesky c N n m2 v2).
Proof.
  intros Hn (H1 & H2 & HS) V1 V2. eapply rres_mono; [apply (invert_two_runs c N (fun _ => False)); auto|].
  - intros p (i & j & -> & Hij). apply HS. apply idx_lt; lia.
  - intros p [].
  - intros r1 r2 (L1 & L2 & HA). split; [exact (valid_length c n n v1 r1 V1 L1)|]. split; [exact (valid_length c n n v2 r2 V2 L2)|].
    intros p Hp; apply HA; auto.
Qed.

(** ** single runs: only element arithmetic can panic; frame *)
Definition okm (R C : nat) (old : list T) : list T -> Prop := fun l => valid c R C l /\ same_tail R C old l.
Notation NP := (arith_only N).

Lemma cellwise_wp R C (old : list T) f r : valid c R C old -> (never_panics N -> forall i j v, i < R -> j < C -> f i j v <> None) ->
  cellwise R C old f r -> wp r (okm R C old) NP.
Proof.
  intros V Hf H. destruct r as [l|e]; cbn [wp cellwise] in *.
  - destruct H as (L & _ & HT). split; [exact (valid_length c R C old l V L)|]. split; auto.
  - destruct H as (-> & i & j & v & Hi & Hj & _ & Hn). split; [reflexivity|]. intros HN. exact (Hf HN i j v Hi Hj Hn).
Qed.

Lemma obind_total {A B} (o : option A) (k : A -> option B) : o <> None -> (forall a, k a <> None) -> obind o k <> None.
Proof. destruct o; cbn; [auto|congruence]. Qed.
Lemma never_add : never_panics N -> forall a b, o_add N a b <> None. Proof. intros H; apply H. Qed.
Lemma never_sub : never_panics N -> forall a b, o_sub N a b <> None. Proof. intros H; apply H. Qed.
Lemma never_mul : never_panics N -> forall a b, o_mul N a b <> None. Proof. intros H; apply H. Qed.
Lemma never_total : never_panics N -> num_total N.
Proof.
  intros (H1 & H2 & H3 & H4 & H5 & H6). repeat split; auto. intros s _. specialize (H6 s).
  destruct (o_sqrt N s) as [l|]; [exists l; auto|congruence].
Qed.
Lemma cell_total R C (l : list T) i j : valid c R C l -> i < R -> j < C -> cell C l i j <> None.
Proof. intros V Hi Hj. destruct (cell_some c R C l i j V Hi Hj) as (v & Hv & _). rewrite Hv. discriminate. Qed.
Lemma dot_total K f g : never_panics N -> (forall k, k < K -> f k <> None) -> (forall k, k < K -> g k <> None) -> dot N K f g <> None.
Proof.
  intros HN. induction K as [|K IH]; intros Hf Hg; cbn [dot]; [discriminate|].
  apply obind_total; [apply IH; auto|]. intros acc. apply obind_total; [auto|]. intros u. apply obind_total; [auto|]. intros v.
  apply obind_total; [apply never_mul; auto|]. intros q. apply never_add; auto.
Qed.
Lemma dot1_total K f g : 1 <= K -> never_panics N -> (forall k, k < K -> f k <> None) -> (forall k, k < K -> g k <> None) -> dot1 N K f g <> None.
Proof.
  intros HK HN. destruct K as [|K]; [lia|]. clear HK. induction K as [|K IH]; intros Hf Hg.
  - cbn [dot1]. apply obind_total; [auto|]. intros u. apply obind_total; [auto|]. intros v. apply never_mul; auto.
  - rewrite dot1_S. apply obind_total; [apply IH; auto|]. intros acc. apply obind_total; [auto|]. intros u. apply obind_total; [auto|]. intros v.
    apply obind_total; [apply never_mul; auto|]. intros q. apply never_add; auto.
Qed.

Ltac tot := intros HN i j v Hi Hj; repeat first
  [ apply never_add; assumption | apply never_sub; assumption | apply never_mul; assumption
  | apply dot_total; [assumption|intros ? ?|intros ? ?]
  | apply dot1_total; [assumption|assumption|intros ? ?|intros ? ?]
  | eapply cell_total; [eassumption|lia|lia]
  | apply obind_total; [|intros ?] ].

Lemma mult_wp M K U (a b cm : list T) : valid c M K a -> valid c K U b -> valid c M U cm ->
  wp (mult c N M K U a b cm) (okm M U cm) NP.
Proof. intros. eapply cellwise_wp; [auto| |apply mult_cellwise; auto]; tot. Qed.
Lemma mult_transb_wp M K U (a b cm : list T) : valid c M K a -> valid c U K b -> valid c M U cm ->
  wp (mult_transb c N M K U a b cm) (okm M U cm) NP.
Proof. intros. eapply cellwise_wp; [auto| |apply mult_transb_cellwise; auto]; tot. Qed.
Lemma multadd_transb_wp M K U (a b cm : list T) : valid c M K a -> valid c U K b -> valid c M U cm ->
  wp (multadd_transb c N M K U a b cm) (okm M U cm) NP.
Proof. intros. eapply cellwise_wp; [auto| |apply multadd_transb_cellwise; auto]; tot. Qed.
Lemma multscale_transb_wp s M K U (a b cm : list T) : valid c M K a -> valid c U K b -> valid c M U cm ->
  wp (multscale_transb c N s M K U a b cm) (okm M U cm) NP.
Proof. intros. eapply cellwise_wp; [auto| |apply multscale_transb_cellwise; auto]; tot. Qed.
Lemma mult_rowvector_wp M K (a x cm : list T) : 1 <= K -> valid c M K a -> valid c K 1 x -> valid c M 1 cm ->
  wp (mult_rowvector c N M K a x cm) (okm M 1 cm) NP.
Proof. intros. eapply cellwise_wp; [auto| |apply mult_rowvector_cellwise; auto]; tot. Qed.
Lemma multadd_rowvector_wp M K (a x cm : list T) : 1 <= K -> valid c M K a -> valid c K 1 x -> valid c M 1 cm ->
  wp (multadd_rowvector c N M K a x cm) (okm M 1 cm) NP.
Proof. intros. eapply cellwise_wp; [auto| |apply multadd_rowvector_cellwise; auto]; tot. Qed.
Lemma copy_to_wp R C (a b : list T) : 1 <= R -> 1 <= C -> valid c R C a -> valid c R C b ->
  wp (copy_to c R C a b) (okm R C b) NP.
Proof. intros. eapply cellwise_wp; [auto| |apply copy_to_cellwise; auto]; tot. Qed.
Lemma add_inplace_a_wp R C (a b : list T) : valid c R C a -> valid c R C b -> wp (add_inplace_a c N R C a b) (okm R C a) NP.
Proof. intros. eapply cellwise_wp; [auto| |apply add_inplace_a_cellwise; auto]; tot. Qed.
Lemma sub_inplace_a_wp R C (a b : list T) : valid c R C a -> valid c R C b -> wp (sub_inplace_a c N R C a b) (okm R C a) NP.
Proof. intros. eapply cellwise_wp; [auto| |apply sub_inplace_a_cellwise; auto]; tot. Qed.
Lemma add_inplace_b_wp R C (a b : list T) : valid c R C a -> valid c R C b -> wp (add_inplace_b c N R C a b) (okm R C b) NP.
Proof. intros. eapply cellwise_wp; [auto| |apply add_inplace_b_cellwise; auto]; tot. Qed.
Lemma sub_inplace_b_wp R C (a b : list T) : valid c R C a -> valid c R C b -> wp (sub_inplace_b c N R C a b) (okm R C b) NP.
Proof. intros. eapply cellwise_wp; [auto| |apply sub_inplace_b_cellwise; auto]; tot. Qed.
Lemma cholesky_wp n (a : list T) : 1 <= n -> valid c n n a ->
  wp (cholesky_decompose_lower c N n n a) (fun r => okm n n a (snd r)) NP.
Proof.
  intros Hn Ha. pose proof (cholesky_spec c N n a Hn Ha) as H.
  destruct (cholesky_decompose_lower c N n n a) as [[[|] l]|e]; cbn [wp snd].
  - destruct H as (HT & _). split; [eapply valid_length; [exact Ha|apply HT]|exact HT].
  - destruct H as (HT & _). split; [eapply valid_length; [exact Ha|apply HT]|exact HT].
  - destruct H as [-> H]. split; [auto|]. intros HN. exact (H (never_total HN)).
Qed.
Lemma invert_wp n (m v : list T) : 1 <= n -> valid c n n m -> valid c n n v ->
  wp (invert_l_cholesky c N n m v) (okm n n v) NP.
Proof.
  intros Hn Hm Hv. eapply wp_mono; [apply invert_spec; auto| |].
  - intros X (HT & _). split; [eapply valid_length; [exact Hv|apply HT]|exact HT].
  - intros e [-> H]. split; [auto|]. intros HN. apply H. split; [exact (never_total HN)|]. intros i l _ _. apply HN.
Qed.

End Kernels2.
