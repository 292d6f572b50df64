(** * Two runs that differ in scratch space only, panics caught *)
From Coq Require Import Lia.
From Verif Require Import Access Inv Spec Matrix Filter Extended SpecFilter History SpecGen Wp Kernels Chol FilterGen FilterTwo HistGen HistTwo Crash SpecCrash CrashErase CrashKernels CrashTorn CrashCalls CrashHist.

Section Rules.
Context {S1 S2 B1 B2 : Type}.
Lemma crel_within (RB UB : B1 -> B2 -> Prop) (R U : S1 -> S2 -> Prop) put1 put2 m1 m2 k1 k2 : crel RB UB m1 m2 -> (forall a b, UB a b -> U (put1 a) (put2 b)) ->
  (forall a b, RB a b -> crel R U (k1 a) (k2 b)) -> crel R U (within put1 m1 k1) (within put2 m2 k2).
Proof. intros H HU HR. destruct m1, m2; cbn in *; try contradiction; [auto|]. destruct H. auto. Qed.
Lemma crel_cmap (RB UB : B1 -> B2 -> Prop) (R U : S1 -> S2 -> Prop) g1 g2 m1 m2 : crel RB UB m1 m2 -> (forall a b, UB a b -> U (g1 a) (g2 b)) -> (forall a b, RB a b -> R (g1 a) (g2 b)) ->
  crel R U (cmap g1 m1) (cmap g2 m2).
Proof. intros H HU HR. destruct m1, m2; cbn in *; try contradiction; [auto|]. destruct H. auto. Qed.
Lemma crel_calc {A} (R U : S1 -> S2 -> Prop) s1 s2 (m : res A) k1 k2 : U s1 s2 -> (forall a, crel R U (k1 a) (k2 a)) -> crel R U (calc s1 m k1) (calc s2 m k2).
Proof. intros HU HR. destruct m; cbn; auto. Qed.
End Rules.

Section Two.
Context {T : Type} (c : cfg) (N : num T).
Notation both R C := (fun a b : list T => valid c R C a /\ valid c R C b).

Lemma crel_scratch R C m1 m2 r1 r2 (old1 old2 : list T) : erase m1 = r1 -> erase m2 = r2 -> rres (mrel c R C) r1 r2 ->
  allc (fun l => length l = length old1) m1 -> allc (fun l => length l = length old2) m2 -> valid c R C old1 -> valid c R C old2 ->
  crel (mrel c R C) (both R C) m1 m2.
Proof.
  intros <- <- H A1 A2 V1 V2. destruct m1, m2; cbn in *; try contradiction; [exact H|]. split; [|exact H]. split; [exact (valid_length c R C _ _ V1 A1)|exact (valid_length c R C _ _ V2 A2)].
Qed.

(** ** what is torn at the same cell agrees *)
Lemma same_cells R C (s1 s2 : list T) : (forall i j, i < R -> j < C -> cell C s1 i j = cell C s2 i j) -> same_matrix R C s1 s2.
Proof. intros H p Hp. destruct (idx_split_lt p R C Hp) as (i & j & -> & Hi & Hj). apply H; assumption. Qed.
Lemma torn_up_two R C (old1 old2 s1 s2 : list T) (f1 f2 : nat -> nat -> T -> option T) p1 p2 : mrel c R C old1 old2 ->
  (forall i j v, i < R -> j < C -> cell C old1 i j = Some v -> f1 i j v = f2 i j v) -> left_up R C f1 old1 s1 p1 -> left_up R C f2 old2 s2 p2 -> mrel c R C s1 s2 /\ p1 = p2.
Proof.
  intros HO Hf (-> & T1 & k1 & Hk1 & H1) (-> & T2 & k2 & Hk2 & H2). pose proof HO as (V1 & V2 & _).
  assert (W1 : valid c R C s1) by (eapply valid_length; [exact V1|apply T1]). assert (W2 : valid c R C s2) by (eapply valid_length; [exact V2|apply T2]).
  assert (EA : forall i j, i < R -> j < C -> obind (cell C old1 i j) (f1 i j) = obind (cell C old2 i j) (f2 i j)).
  { intros i j Hi Hj. rewrite <- (mrel_cell c _ _ _ _ _ _ HO Hi Hj). destruct (cell C old1 i j) eqn:E; [|reflexivity]. apply (Hf i j _ Hi Hj E). }
  assert (K : k1 = k2).
  { destruct (Nat.lt_trichotomy k1 k2) as [L|[L|L]]; [|exact L|]; exfalso.
    - destruct (idx_split_lt k1 R C Hk1) as (i & j & -> & Hi & Hj). destruct (H1 i j Hi Hj) as (_ & E). destruct (H2 i j Hi Hj) as (E2 & _). destruct (Nat.ltb_spec (i * C + j) k2); [|lia].
      rewrite <- EA, E in E2 by auto. exact (cell_total c R C s2 i j W2 Hi Hj E2).
    - destruct (idx_split_lt k2 R C Hk2) as (i & j & -> & Hi & Hj). destruct (H2 i j Hi Hj) as (_ & E). destruct (H1 i j Hi Hj) as (E2 & _). destruct (Nat.ltb_spec (i * C + j) k1); [|lia].
      rewrite EA, E in E2 by auto. exact (cell_total c R C s1 i j W1 Hi Hj E2). }
  subst k2. split; [|reflexivity]. split; [exact W1|]. split; [exact W2|]. apply same_cells. intros i j Hi Hj. destruct (H1 i j Hi Hj) as (-> & _). destruct (H2 i j Hi Hj) as (-> & _).
  rewrite EA, (mrel_cell c _ _ _ _ _ _ HO Hi Hj) by assumption. reflexivity.
Qed.
Lemma torn_down_two R C (old1 old2 s1 s2 : list T) (f1 f2 : nat -> nat -> T -> option T) p1 p2 : mrel c R C old1 old2 ->
  (forall i j v, i < R -> j < C -> cell C old1 i j = Some v -> f1 i j v = f2 i j v) -> left_down R C f1 old1 s1 p1 -> left_down R C f2 old2 s2 p2 -> mrel c R C s1 s2 /\ p1 = p2.
Proof.
  intros HO Hf (-> & T1 & k1 & Hk1 & H1) (-> & T2 & k2 & Hk2 & H2). pose proof HO as (V1 & V2 & _).
  assert (W1 : valid c R C s1) by (eapply valid_length; [exact V1|apply T1]). assert (W2 : valid c R C s2) by (eapply valid_length; [exact V2|apply T2]).
  assert (EA : forall i j, i < R -> j < C -> obind (cell C old1 i j) (f1 i j) = obind (cell C old2 i j) (f2 i j)).
  { intros i j Hi Hj. rewrite <- (mrel_cell c _ _ _ _ _ _ HO Hi Hj). destruct (cell C old1 i j) eqn:E; [|reflexivity]. apply (Hf i j _ Hi Hj E). }
  assert (K : k1 = k2).
  { destruct (Nat.lt_trichotomy k1 k2) as [L|[L|L]]; [|exact L|]; exfalso.
    - destruct (idx_split_lt k2 R C Hk2) as (i & j & -> & Hi & Hj). destruct (H2 i j Hi Hj) as (_ & E). destruct (H1 i j Hi Hj) as (E2 & _). destruct (Nat.ltb_spec k1 (i * C + j)); [|lia].
      rewrite EA, E in E2 by auto. exact (cell_total c R C s1 i j W1 Hi Hj E2).
    - destruct (idx_split_lt k1 R C Hk1) as (i & j & -> & Hi & Hj). destruct (H1 i j Hi Hj) as (_ & E). destruct (H2 i j Hi Hj) as (E2 & _). destruct (Nat.ltb_spec k2 (i * C + j)); [|lia].
      rewrite <- EA, E in E2 by auto. exact (cell_total c R C s2 i j W2 Hi Hj E2). }
  subst k2. split; [|reflexivity]. split; [exact W1|]. split; [exact W2|]. apply same_cells. intros i j Hi Hj. destruct (H1 i j Hi Hj) as (-> & _). destruct (H2 i j Hi Hj) as (-> & _).
  rewrite EA, (mrel_cell c _ _ _ _ _ _ HO Hi Hj) by assumption. reflexivity.
Qed.

Lemma crel_live R C m1 m2 r1 r2 (L1 L2 : list T -> panic -> Prop) : erase m1 = r1 -> erase m2 = r2 -> rres (mrel c R C) r1 r2 ->
  cwp m1 (fun _ => True) L1 -> cwp m2 (fun _ => True) L2 -> (forall s1 s2 p1 p2, L1 s1 p1 -> L2 s2 p2 -> mrel c R C s1 s2 /\ p1 = p2) -> crel (mrel c R C) (mrel c R C) m1 m2.
Proof. intros <- <- H A1 A2 HL. destruct m1, m2; cbn in *; try contradiction; [exact H|]. apply HL; assumption. Qed.

(** ** kernels *)
Lemma mult_ct M K U (a1 a2 b1 b2 d1 d2 : list T) : mrel c M K a1 a2 -> mrel c K U b1 b2 -> valid c M U d1 -> valid c M U d2 ->
  crel (mrel c M U) (both M U) (mult_cr c N M K U a1 b1 d1) (mult_cr c N M K U a2 b2 d2).
Proof. intros. eapply crel_scratch; [apply er_mult|apply er_mult|apply mult_two; eassumption|apply keep_mult; reflexivity|apply keep_mult; reflexivity|assumption|assumption]. Qed.
Lemma mult_rowvector_ct M K (a1 a2 b1 b2 d1 d2 : list T) : 1 <= K -> mrel c M K a1 a2 -> mrel c K 1 b1 b2 -> valid c M 1 d1 -> valid c M 1 d2 ->
  crel (mrel c M 1) (both M 1) (mult_rowvector_cr c N M K a1 b1 d1) (mult_rowvector_cr c N M K a2 b2 d2).
Proof. intros. eapply crel_scratch; [apply er_gen_mult_rowvector|apply er_gen_mult_rowvector|apply mult_rowvector_two; eassumption|apply keep_gen_mult_rowvector; reflexivity|apply keep_gen_mult_rowvector; reflexivity|assumption|assumption]. Qed.
Lemma mult_transb_ct M K U (a1 a2 b1 b2 d1 d2 : list T) : mrel c M K a1 a2 -> mrel c U K b1 b2 -> valid c M U d1 -> valid c M U d2 ->
  crel (mrel c M U) (both M U) (mult_transb_cr c N M K U a1 b1 d1) (mult_transb_cr c N M K U a2 b2 d2).
Proof. intros. eapply crel_scratch; [apply er_gen_mult_transb|apply er_gen_mult_transb|apply mult_transb_two; eassumption|apply keep_gen_mult_transb; reflexivity|apply keep_gen_mult_transb; reflexivity|assumption|assumption]. Qed.
Lemma add_a_ct R C (a1 a2 b1 b2 : list T) : mrel c R C a1 a2 -> mrel c R C b1 b2 -> crel (mrel c R C) (both R C) (add_inplace_a_cr c N R C a1 b1) (add_inplace_a_cr c N R C a2 b2).
Proof. intros Ha Hb. eapply crel_scratch; [apply er_add_inplace_a|apply er_add_inplace_a|apply add_inplace_a_two; eassumption|apply keep_add_inplace_a; reflexivity|apply keep_add_inplace_a; reflexivity|apply Ha|apply Ha]. Qed.
Lemma sub_b_ct R C (a1 a2 b1 b2 : list T) : mrel c R C a1 a2 -> mrel c R C b1 b2 -> crel (mrel c R C) (both R C) (sub_inplace_b_cr c N R C a1 b1) (sub_inplace_b_cr c N R C a2 b2).
Proof. intros Ha Hb. eapply crel_scratch; [apply er_sub_inplace_b|apply er_sub_inplace_b|apply sub_inplace_b_two; eassumption|apply keep_sub_inplace_b; reflexivity|apply keep_sub_inplace_b; reflexivity|apply Hb|apply Hb]. Qed.
Lemma cholesky_ct m (a1 a2 : list T) : 1 <= m -> mrel c m m a1 a2 -> crel (mrel c m m) (both m m) (cholesky_cr c N m m a1) (cholesky_cr c N m m a2).
Proof.
  intros Hm H. eapply crel_scratch; [apply er_cholesky|apply er_cholesky| |apply keep_cholesky; reflexivity|apply keep_cholesky; reflexivity|apply H|apply H].
  eapply rres_bind; [apply cholesky_two; eassumption|]. intros [? ?] [? ?] [_ E] _ _. exact E.
Qed.
Lemma invert_ct m (a1 a2 b1 b2 : list T) : 1 <= m -> mrel c m m a1 a2 -> valid c m m b1 -> valid c m m b2 -> crel (mrel c m m) (both m m) (invert_l_cholesky_cr c N m a1 b1) (invert_l_cholesky_cr c N m a2 b2).
Proof. intros. eapply crel_scratch; [apply er_invert|apply er_invert|apply invert_two; assumption|apply keep_invert; reflexivity|apply keep_invert; reflexivity|assumption|assumption]. Qed.
Lemma copy_to_ct R C (a1 a2 b1 b2 : list T) : 1 <= R -> 1 <= C -> mrel c R C a1 a2 -> valid c R C b1 -> valid c R C b2 -> crel (mrel c R C) (fun _ _ => False) (copy_to_cr c R C a1 b1) (copy_to_cr c R C a2 b2).
Proof.
  intros HR HC Ha V1 V2. pose proof (copy_to_two c R C a1 a2 b1 b2 HR HC Ha V1 V2) as H. rewrite <- !er_copy_to in H.
  pose proof (copy_to_returns c R C a1 b1 HR HC (proj1 Ha) V1) as L1. destruct (copy_to_cr c R C a1 b1), (copy_to_cr c R C a2 b2); cbn in *; try contradiction. exact H.
Qed.
(** kernels that write to the state or the covariance *)
Lemma multadd_rowvector_ct M K (a1 a2 b1 b2 d1 d2 : list T) : 1 <= K -> mrel c M K a1 a2 -> mrel c K 1 b1 b2 -> mrel c M 1 d1 d2 ->
  crel (mrel c M 1) (mrel c M 1) (multadd_rowvector_cr c N M K a1 b1 d1) (multadd_rowvector_cr c N M K a2 b2 d2).
Proof.
  intros HK Ha Hb Hd. eapply crel_live; [apply er_gen_mult_rowvector|apply er_gen_mult_rowvector|apply multadd_rowvector_two; eassumption
    |apply (rowvector_left c N (o_add N)); [reflexivity|exact HK|apply Ha|apply Hb|apply Hd]|apply (rowvector_left c N (o_add N)); [reflexivity|exact HK|apply Ha|apply Hb|apply Hd]|].
  intros s1 s2 p1 p2. apply (torn_up_two _ _ _ _ _ _ _ _ _ _ Hd). intros i j v Hi Hj _. rewrite (dot1_ext N K _ _ (fun k => cell K a2 i k) (fun k => cell 1 b2 k 0)); [reflexivity| |]; intros k Hk; eapply mrel_cell; eauto.
Qed.
Lemma transb_ct st store M K U (a1 a2 b1 b2 d1 d2 : list T) : (forall o t, store o t = of_opt (st o t)) -> mrel c M K a1 a2 -> mrel c U K b1 b2 -> mrel c M U d1 d2 ->
  rres (mrel c M U) (gen_mult_transb c N store M K U a1 b1 d1) (gen_mult_transb c N store M K U a2 b2 d2) ->
  crel (mrel c M U) (mrel c M U) (gen_mult_transb_cr c N store M K U a1 b1 d1) (gen_mult_transb_cr c N store M K U a2 b2 d2).
Proof.
  intros Hst Ha Hb Hd Hr. eapply crel_live; [apply er_gen_mult_transb|apply er_gen_mult_transb|exact Hr
    |apply (transb_left c N st); [exact Hst|apply Ha|apply Hb|apply Hd]|apply (transb_left c N st); [exact Hst|apply Ha|apply Hb|apply Hd]|].
  intros s1 s2 p1 p2. apply (torn_up_two _ _ _ _ _ _ _ _ _ _ Hd). intros i j v Hi Hj _. rewrite (dot_ext N K _ _ (fun k => cell K a2 i k) (fun k => cell K b2 j k)); [reflexivity| |]; intros k Hk; eapply mrel_cell; eauto.
Qed.
Lemma add_b_ct R C (a1 a2 b1 b2 : list T) : mrel c R C a1 a2 -> mrel c R C b1 b2 -> crel (mrel c R C) (mrel c R C) (add_inplace_b_cr c N R C a1 b1) (add_inplace_b_cr c N R C a2 b2).
Proof.
  intros Ha Hb. eapply crel_live; [apply er_add_inplace_b|apply er_add_inplace_b|apply add_inplace_b_two; eassumption|apply add_b_left; [apply Ha|apply Hb]|apply add_b_left; [apply Ha|apply Hb]|].
  intros s1 s2 p1 p2. apply (torn_down_two _ _ _ _ _ _ _ _ _ _ Hb). intros i j v Hi Hj _. rewrite (mrel_cell c _ _ _ _ _ _ Ha Hi Hj). reflexivity.
Qed.
Lemma sub_a_ct R C (a1 a2 b1 b2 : list T) : mrel c R C a1 a2 -> mrel c R C b1 b2 -> crel (mrel c R C) (mrel c R C) (sub_inplace_a_cr c N R C a1 b1) (sub_inplace_a_cr c N R C a2 b2).
Proof.
  intros Ha Hb. eapply crel_live; [apply er_sub_inplace_a|apply er_sub_inplace_a|apply sub_inplace_a_two; eassumption|apply sub_a_left; [apply Ha|apply Hb]|apply sub_a_left; [apply Ha|apply Hb]|].
  intros s1 s2 p1 p2. apply (torn_down_two _ _ _ _ _ _ _ _ _ _ Ha). intros i j v Hi Hj _. rewrite (mrel_cell c _ _ _ _ _ _ Hb Hi Hj). reflexivity.
Qed.

(** ** calls *)
Ltac fin := repeat match goal with |- _ /\ _ => split end; auto.
Ltac open_kf H := destruct H as ((?vA & ?vx & ?vP & ?vQ & ?vpx & ?vtP) & (?vA & ?vx & ?vP & ?vQ & ?vpx & ?vtP) & (?sA & ?sx & ?sP & ?sQ)).
Ltac mr := match goal with |- mrel _ _ _ _ _ => split; [|split]; eassumption | |- _ => eassumption end.
Ltac kf_fin := unfold kf_rel, kf_valid, kf_same; cbn; fin.
Notation KR n := (kf_rel c n).

Lemma predict_x_ct n (f g : kalman T) : 1 <= n -> KR n f g -> crel (KR n) (KR n) (predict_x_cr c N n f) (predict_x_cr c N n g).
Proof.
  intros Hn H. open_kf H. unfold predict_x_cr. eapply crel_within; [apply mult_rowvector_ct; mr| |].
  - intros a b [V1 V2]. kf_fin.
  - intros a b M. pose proof M as (V1 & V2 & S). cbv zeta. eapply crel_cmap; [apply copy_to_ct; [exact Hn|apply le_n|exact M|eassumption|eassumption]|intros ? ? []|]. intros x1 x2 (W1 & W2 & W3). kf_fin.
Qed.
Lemma predict_P_gen n st store (f g : kalman T) : (forall o t, store o t = of_opt (st o t)) ->
  (forall t1 t2, mrel c n n t1 t2 -> rres (mrel c n n) (gen_mult_transb c N store n n n t1 (kf_A f) (kf_P f)) (gen_mult_transb c N store n n n t2 (kf_A g) (kf_P g))) -> KR n f g ->
  let body h := within (w_tP h) (mult_cr c N n n n (kf_A h) (kf_P h) (kf_tP h)) (fun tP => let h := w_tP h tP in
    within (w_P h) (gen_mult_transb_cr c N store n n n tP (kf_A h) (kf_P h)) (fun P => cmap (w_P h) (add_inplace_b_cr c N n n (kf_Q h) P))) in
  crel (KR n) (KR n) (body f) (body g).
Proof.
  intros Hst Hr H body. unfold body; clear body. open_kf H. eapply crel_within; [apply mult_ct; mr| |].
  - intros a b [V1 V2]. kf_fin.
  - intros t1 t2 M. pose proof M as (V1 & V2 & S). cbv zeta. cbn [w_tP kf_A kf_P kf_Q]. eapply crel_within; [apply (transb_ct st); [exact Hst|exact M|mr|mr|apply Hr, M]| |].
    + intros a b (W1 & W2 & W3). kf_fin.
    + intros a b Mp. pose proof Mp as (W1 & W2 & W3). eapply crel_cmap; [apply add_b_ct; [mr|exact Mp]| |]; intros P1 P2 (X1 & X2 & X3); kf_fin.
Qed.
Lemma predict_P_ct n (f g : kalman T) : KR n f g -> crel (KR n) (KR n) (predict_P_cr c N n f) (predict_P_cr c N n g).
Proof.
  intros H. apply (predict_P_gen n (fun _ t => Some t) (fun _ t => Ok t)); [reflexivity| |exact H]. intros t1 t2 M. open_kf H. apply mult_transb_two; mr.
Qed.
Lemma predict_P_tuned_ct n lam (f g : kalman T) : KR n f g -> crel (KR n) (KR n) (predict_P_tuned_cr c N n lam f) (predict_P_tuned_cr c N n lam g).
Proof.
  intros H. unfold predict_P_tuned_cr. apply crel_calc; [exact H|]. intros s. apply (predict_P_gen n (fun _ t => o_mul N t s) (fun _ t => n_mul N t s)); [reflexivity| |exact H].
  intros t1 t2 M. open_kf H. apply multscale_transb_two; mr.
Qed.
Lemma predict_ct n (f g : kalman T) : 1 <= n -> KR n f g -> crel (KR n) (KR n) (predict_cr c N n f) (predict_cr c N n g).
Proof. intros Hn H. eapply crel_within; [apply predict_x_ct; assumption|auto|intros; apply predict_P_ct; assumption]. Qed.
Lemma predict_tuned_ct n lam (f g : kalman T) : 1 <= n -> KR n f g -> crel (KR n) (KR n) (predict_tuned_cr c N n lam f) (predict_tuned_cr c N n lam g).
Proof. intros Hn H. eapply crel_within; [apply predict_x_ct; assumption|auto|intros; apply predict_P_tuned_ct; assumption]. Qed.

Lemma predict_x_nl_ct n h1 h2 (f g : kalman T) : 1 <= n -> closure_alike c n n h1 h2 -> KR n f g -> crel (KR n) (KR n) (predict_x_nonlinear_cr c n h1 f) (predict_x_nonlinear_cr c n h2 g).
Proof.
  intros Hn Hh H. open_kf H. unfold predict_x_nonlinear_cr. eapply crel_within; [apply Hh; mr| |].
  - intros a b [V1 V2]. kf_fin.
  - intros a b M. pose proof M as (V1 & V2 & S). cbv zeta. eapply crel_cmap; [apply copy_to_ct; [exact Hn|apply le_n|exact M|eassumption|eassumption]|intros ? ? []|]. intros x1 x2 (W1 & W2 & W3). kf_fin.
Qed.
Lemma predict_nl_ct n h1 h2 (f g : kalman T) : 1 <= n -> closure_alike c n n h1 h2 -> KR n f g -> crel (KR n) (KR n) (predict_nonlinear_cr c N n h1 f) (predict_nonlinear_cr c N n h2 g).
Proof. intros Hn Hh H. eapply crel_within; [apply predict_x_nl_ct; eassumption|auto|intros; apply predict_P_ct; assumption]. Qed.
Lemma predict_tuned_nl_ct n lam h1 h2 (f g : kalman T) : 1 <= n -> closure_alike c n n h1 h2 -> KR n f g -> crel (KR n) (KR n) (predict_tuned_nonlinear_cr c N n lam h1 f) (predict_tuned_nonlinear_cr c N n lam h2 g).
Proof. intros Hn Hh H. eapply crel_within; [apply predict_x_nl_ct; eassumption|auto|intros; apply predict_P_tuned_ct; assumption]. Qed.

Lemma control_ct n m (k1 k2 : control T) (f g : kalman T) : ct_rel c n m k1 k2 -> KR n f g ->
  let RR := fun r1 r2 => ct_rel c n m (fst r1) (fst r2) /\ kf_rel c n (snd r1) (snd r2) in crel RR RR (control_cr c N n m k1 f) (control_cr c N n m k2 g).
Proof.
  intros Hk Hf RR. pose proof Hf as H. open_kf H. pose proof Hk as ((vB & vu & vQ' & vBQ) & (vB' & vu' & vQ'' & vBQ') & (sB & su & sQ')).
  unfold control_cr. rewrite (is_empty_valid c m 1 _ vu), (is_empty_valid c n m _ vB). cbn [bind].
  destruct (m * 1 =? 0) eqn:E1; [split; assumption|]. cbn [calc]. destruct (n * m =? 0) eqn:E2; [split; assumption|]. apply Nat.eqb_neq in E1.
  eapply crel_within; [apply multadd_rowvector_ct; [lia|mr|mr|mr]| |].
  - intros x1 x2 (V1 & V2 & S). split; [exact Hk|]. cbn. kf_fin.
  - intros x1 x2 (V1 & V2 & S). cbv zeta. eapply crel_within; [apply mult_ct; mr| |].
    + intros a b [W1 W2]. split; cbn; [unfold ct_rel, ct_valid, ct_same; cbn; fin|kf_fin].
    + intros a b M. pose proof M as (W1 & W2 & W3). cbn [w_BQ ct_B w_x kf_P].
      eapply crel_cmap; [apply (transb_ct (o_add N)); [reflexivity|exact M|mr|mr|apply multadd_transb_two; [exact M|mr|mr]]| |];
        intros P1 P2 (X1 & X2 & X3); (split; cbn; [unfold ct_rel, ct_valid, ct_same; cbn; fin|kf_fin]).
Qed.

Ltac ob_fin := unfold ob_rel, ob_valid, ob_same; cbn; fin.
Lemma update_ct n m (o1 o2 : observation T) (f g : kalman T) : 1 <= n -> 1 <= m -> ob_rel c n m o1 o2 -> same_matrix m 1 (ob_y o1) (ob_y o2) -> KR n f g ->
  let RR := fun r1 r2 => ob_rel c n m (fst r1) (fst r2) /\ kf_rel c n (snd r1) (snd r2) in crel RR RR (update_cr c N n m o1 f) (update_cr c N n m o2 g).
Proof.
  intros Hn Hm Ho Hy Hf RR. pose proof Hf as H. open_kf H. pose proof Ho as ((vH & vz & vR & vy & vS & vK & vSi & vHP & vPHt & vKHP) & (vH' & vz' & vR' & vy' & vS' & vK' & vSi' & vHP' & vPHt' & vKHP') & (sH & sz & sR)).
  unfold update_cr. cbv zeta. cbn [w_HP w_S w_Sinv w_PHt w_K w_KHP ob_H ob_y ob_S ob_R ob_Sinv ob_PHt ob_K ob_HP ob_KHP w_x kf_x kf_P].
  eapply crel_within; [apply mult_ct; mr|intros a b [? ?]; split; cbn; [ob_fin|exact Hf]|]. intros HP1 HP2 M1. pose proof M1 as (?&?&?).
  eapply crel_within; [apply mult_transb_ct; mr|intros a b [? ?]; split; cbn; [ob_fin|exact Hf]|]. intros S1 S2 M2.
  eapply crel_within; [apply add_a_ct; mr|intros a b [? ?]; split; cbn; [ob_fin|exact Hf]|]. clear S1 S2 M2. intros S1 S2 M2.
  eapply crel_within; [apply cholesky_ct; mr|intros a b [? ?]; split; cbn; [ob_fin|exact Hf]|]. clear S1 S2 M2. intros S1 S2 M2. pose proof M2 as (?&?&?).
  eapply crel_within; [apply invert_ct; mr|intros a b [? ?]; split; cbn; [ob_fin|exact Hf]|]. intros I1 I2 M3. pose proof M3 as (?&?&?).
  eapply crel_within; [apply mult_transb_ct; mr|intros a b [? ?]; split; cbn; [ob_fin|exact Hf]|]. intros Q1 Q2 M4. pose proof M4 as (?&?&?).
  eapply crel_within; [apply mult_ct; mr|intros a b [? ?]; split; cbn; [ob_fin|exact Hf]|]. intros K1 K2 M5. pose proof M5 as (?&?&?).
  eapply crel_within; [apply multadd_rowvector_ct; [exact Hm|mr|mr|mr]|intros a b (?&?&?); split; cbn; [ob_fin|kf_fin]|]. intros x1 x2 M6. pose proof M6 as (?&?&?).
  eapply crel_within; [apply mult_ct; mr|intros a b [? ?]; split; cbn; [ob_fin|kf_fin]|]. intros HP3 HP4 M7. pose proof M7 as (?&?&?).
  eapply crel_within; [apply mult_ct; mr|intros a b [? ?]; split; cbn; [ob_fin|kf_fin]|]. intros X1 X2 M8. pose proof M8 as (?&?&?).
  eapply crel_cmap; [apply sub_a_ct; mr| |]; intros P1 P2 (?&?&?); (split; cbn; [ob_fin|kf_fin]).
Qed.
Lemma innovate_ct n m (o1 o2 : observation T) (f g : kalman T) y1 y2 : 1 <= n -> 1 <= m -> ob_rel c n m o1 o2 -> KR n f g -> mrel c m 1 y1 y2 ->
  let RR := fun r1 r2 => ob_rel c n m (fst r1) (fst r2) /\ kf_rel c n (snd r1) (snd r2) in
  crel RR RR (within (fun y => (w_y o1 y, f)) (sub_inplace_b_cr c N m 1 (ob_z o1) y1) (fun y => update_cr c N n m (w_y o1 y) f))
             (within (fun y => (w_y o2 y, g)) (sub_inplace_b_cr c N m 1 (ob_z o2) y2) (fun y => update_cr c N n m (w_y o2 y) g)).
Proof.
  intros Hn Hm Ho Hf Hy RR. pose proof Ho as ((vH & vz & vR & vy & vS & vK & vSi & vHP & vPHt & vKHP) & (vH' & vz' & vR' & vy' & vS' & vK' & vSi' & vHP' & vPHt' & vKHP') & (sH & sz & sR)).
  eapply crel_within; [apply sub_b_ct; mr|intros a b [? ?]; split; cbn; [ob_fin|exact Hf]|]. intros a b (?&?&?). apply update_ct; [exact Hn|exact Hm|ob_fin|cbn; assumption|exact Hf].
Qed.
Lemma correct_ct n m (o1 o2 : observation T) (f g : kalman T) : 1 <= n -> 1 <= m -> ob_rel c n m o1 o2 -> KR n f g ->
  let RR := fun r1 r2 => ob_rel c n m (fst r1) (fst r2) /\ kf_rel c n (snd r1) (snd r2) in crel RR RR (correct_cr c N n m o1 f) (correct_cr c N n m o2 g).
Proof.
  intros Hn Hm Ho Hf RR. pose proof Hf as H. open_kf H. pose proof Ho as ((vH & vz & vR & vy & vS & vK & vSi & vHP & vPHt & vKHP) & (vH' & vz' & vR' & vy' & vS' & vK' & vSi' & vHP' & vPHt' & vKHP') & (sH & sz & sR)).
  unfold correct_cr. eapply crel_within; [apply mult_rowvector_ct; mr|intros a b [? ?]; split; cbn; [ob_fin|exact Hf]|]. intros a b M. apply innovate_ct; assumption.
Qed.
Lemma correct_nl_ct n m h1 h2 (o1 o2 : observation T) (f g : kalman T) : 1 <= n -> 1 <= m -> closure_alike c m n h1 h2 -> ob_rel c n m o1 o2 -> KR n f g ->
  let RR := fun r1 r2 => ob_rel c n m (fst r1) (fst r2) /\ kf_rel c n (snd r1) (snd r2) in crel RR RR (correct_nonlinear_cr c N n m h1 o1 f) (correct_nonlinear_cr c N n m h2 o2 g).
Proof.
  intros Hn Hm Hh Ho Hf RR. pose proof Hf as H. open_kf H. pose proof Ho as ((vH & vz & vR & vy & vS & vK & vSi & vHP & vPHt & vKHP) & (vH' & vz' & vR' & vy' & vS' & vK' & vSi' & vHP' & vPHt' & vKHP') & (sH & sz & sR)).
  unfold correct_nonlinear_cr. eapply crel_within; [apply Hh; mr|intros a b [? ?]; split; cbn; [ob_fin|exact Hf]|]. intros a b M. apply innovate_ct; assumption.
Qed.

(** ** programs *)
Lemma step_ct n (w1 w2 : world T) o1 o2 : 1 <= n -> Forall (fun m => 1 <= m) (ob_dims w1) -> world_rel c n w1 w2 -> cop_alike c n (ob_dims w1) o1 o2 ->
  crel (world_rel c n) (world_rel c n) (step_cr c N n w1 o1) (step_cr c N n w2 o2).
Proof.
  intros Hn Hd Hw Ho. pose proof Hw as (Hf & _ & _).
  assert (KF : forall m1 m2, crel (KR n) (KR n) m1 m2 -> crel (world_rel c n) (world_rel c n) (cmap (set_kf w1) m1) (cmap (set_kf w2) m2)).
  { intros m1 m2 H. eapply crel_cmap; [exact H| |]; intros; apply rel_set_kf; assumption. }
  destruct o1 as [|lam|h|lam h|i|j|j h|o]; cbn [cop_alike] in Ho; [subst o2|subst o2|destruct o2; try contradiction|destruct o2; try contradiction; destruct Ho as [<- Ho]|subst o2|subst o2|destruct o2; try contradiction; destruct Ho as [<- Ho]|subst o2]; cbn [step_cr].
  - apply KF, predict_ct; assumption.
  - apply KF, predict_tuned_ct; assumption.
  - apply KF, predict_nl_ct; assumption.
  - apply KF, predict_tuned_nl_ct; assumption.
  - pose proof (rel_ct_nth c n w1 w2 i Hw) as E. destruct (nth_error (w_ct w1) i) as [[m1 k1]|], (nth_error (w_ct w2) i) as [[m2 k2]|]; try contradiction; [|exact Hw]. destruct E as [<- E].
    eapply crel_cmap; [apply control_ct; eassumption| |]; intros [a f1] [b f2] [H1 H2]; cbn [fst snd] in *; apply rel_set_ct; [apply rel_set_kf; assumption|assumption|apply rel_set_kf; assumption|assumption].
  - pose proof (rel_ob_nth c n w1 w2 j Hw) as E. destruct (nth_error (w_ob w1) j) as [[m1 k1]|] eqn:E1, (nth_error (w_ob w2) j) as [[m2 k2]|]; try contradiction; [|exact Hw]. destruct E as [<- E].
    pose proof (HistGen.Forall_nth _ _ _ _ Hd (ob_dims_nth _ _ _ _ E1)) as Hm. cbv beta in Hm.
    eapply crel_cmap; [apply correct_ct; eassumption| |]; intros [a f1] [b f2] [H1 H2]; cbn [fst snd] in *; apply rel_set_ob; [apply rel_set_kf; assumption|assumption|apply rel_set_kf; assumption|assumption].
  - pose proof (rel_ob_nth c n w1 w2 j Hw) as E. destruct (nth_error (w_ob w1) j) as [[m1 k1]|] eqn:E1, (nth_error (w_ob w2) j) as [[m2 k2]|]; try contradiction; [|exact Hw]. destruct E as [<- E].
    pose proof (HistGen.Forall_nth _ _ _ _ Hd (ob_dims_nth _ _ _ _ E1)) as Hm. cbv beta in Hm. rewrite (ob_dims_nth _ _ _ _ E1) in Ho.
    eapply crel_cmap; [apply correct_nl_ct; eassumption| |]; intros [a f1] [b f2] [H1 H2]; cbn [fst snd] in *; apply rel_set_ob; [apply rel_set_kf; assumption|assumption|apply rel_set_kf; assumption|assumption].
  - destruct (is_setter o) eqn:Es; [|exact Hw]. assert (S : op_same c n (ob_dims w1) o o) by (destruct o; try discriminate; reflexivity).
    pose proof (step_two c N n w1 w2 o o Hn Hd Hw S) as R. unfold lastly, calc. destruct (step c N n w1 o), (step c N n w2 o); cbn in *; try contradiction; auto.
Qed.
Lemma cr_dims n (w : world T) o : match step_cr c N n w o with Returned w' | Unwound w' _ => ob_dims w' = ob_dims w end.
Proof.
  destruct o as [|lam|h|lam h|i|j|j h|o]; cbn [step_cr].
  - destruct (predict_cr c N n (w_kf w)); reflexivity.
  - destruct (predict_tuned_cr c N n lam (w_kf w)); reflexivity.
  - destruct (predict_nonlinear_cr c N n h (w_kf w)); reflexivity.
  - destruct (predict_tuned_nonlinear_cr c N n lam h (w_kf w)); reflexivity.
  - destruct (nth_error (w_ct w) i) as [[m k]|]; [|reflexivity]. destruct (control_cr c N n m k (w_kf w)); reflexivity.
  - destruct (nth_error (w_ob w) j) as [[m k]|] eqn:E; [|reflexivity]. destruct (correct_cr c N n m k (w_kf w)); cbn [cmap]; unfold ob_dims; cbn; (eapply map_upd; [exact E|reflexivity]).
  - destruct (nth_error (w_ob w) j) as [[m k]|] eqn:E; [|reflexivity]. destruct (correct_nonlinear_cr c N n m h k (w_kf w)); cbn [cmap]; unfold ob_dims; cbn; (eapply map_upd; [exact E|reflexivity]).
  - destruct (is_setter o); [|reflexivity]. unfold lastly, calc. destruct (step c N n w o) as [w'|] eqn:E; [|reflexivity]. apply (step_dims c N n w o w' E).
Qed.
Theorem run_catch_two n os1 : forall os2 (w1 w2 : world T), 1 <= n -> Forall (fun m => 1 <= m) (ob_dims w1) -> world_rel c n w1 w2 -> Forall2 (cop_alike c n (ob_dims w1)) os1 os2 ->
  same_story c n (run_catch c N n w1 os1) (run_catch c N n w2 os2).
Proof.
  unfold same_story.
  induction os1 as [|o1 os1 IH]; intros os2 w1 w2 Hn Hd Hw Ho; inversion Ho as [|? o2 ? os2' Ho1 Ho2]; subst; [split; [exact Hw|reflexivity]|]. cbn [run_catch].
  pose proof (step_ct n w1 w2 o1 o2 Hn Hd Hw Ho1) as S. pose proof (cr_dims n w1 o1) as D.
  destruct (step_cr c N n w1 o1) as [w1'|w1' p], (step_cr c N n w2 o2) as [w2'|w2' q]; cbn [crel] in S; try contradiction; cbn [fst snd].
  - destruct (IH os2' w1' w2' Hn) as [A B]; [rewrite D; exact Hd|exact S|rewrite D; exact Ho2|]. split; [exact A|congruence].
  - destruct S as [S <-]. destruct (IH os2' w1' w2' Hn) as [A B]; [rewrite D; exact Hd|exact S|rewrite D; exact Ho2|]. split; [exact A|congruence].
Qed.
End Two.
