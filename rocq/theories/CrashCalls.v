(** * What the calls leave behind when they panic *)
From Coq Require Import Lia.
From Verif Require Import Spec SpecBits Matrix Filter Extended SpecFilter Wp Kernels Access Chol Inv FilterGen FilterTwo BitsProof Crash CrashErase SpecCrash CrashKernels CrashTorn.

Section Calls.
Context {T : Type} (c : cfg) (N : num T).
Ltac fin := repeat match goal with |- _ /\ _ => split end; auto using st_refl.
Lemma panic_none {S} (m : cr S) (r : res S) s p : erase m = r -> m = Unwound s p -> r = Panic p.
Proof. intros <- ->. reflexivity. Qed.
Lemma cellwise_panic R C (old : list T) f p : cellwise R C old f (Panic p) -> exists i j v, i < R /\ j < C /\ cell C old i j = Some v /\ f i j v = None.
Proof. intros (_ & H). exact H. Qed.

Lemma kept_refl n (f : kalman T) : kf_valid c n f -> kf_kept c n f f.
Proof. intros V. split; [exact V|]. split; [split; reflexivity|split; apply st_refl]. Qed.
Lemma kept_trans n (f g h : kalman T) : kf_kept c n f g -> kf_kept c n g h -> kf_kept c n f h.
Proof. intros (_ & M1 & T1) (V & M2 & T2). split; [exact V|]. apply (frame_trans n f g h); split; assumption. Qed.
(** replacing one buffer *)
Lemma kept_px n (f : kalman T) px : kf_valid c n f -> length px = length (kf_px f) -> kf_kept c n f (w_px f px).
Proof. intros (VA & Vx & VP & VQ & Vpx & VtP) E. unfold kf_kept, kf_valid, kf_same_model, kf_same_tail; cbn. fin. eapply valid_length; eauto. Qed.
Lemma kept_tP n (f : kalman T) tP : kf_valid c n f -> length tP = length (kf_tP f) -> kf_kept c n f (w_tP f tP).
Proof. intros (VA & Vx & VP & VQ & Vpx & VtP) E. unfold kf_kept, kf_valid, kf_same_model, kf_same_tail; cbn. fin. eapply valid_length; eauto. Qed.
Lemma kept_x n (f : kalman T) x : kf_valid c n f -> same_tail n 1 (kf_x f) x -> kf_kept c n f (w_x f x).
Proof. intros (VA & Vx & VP & VQ & Vpx & VtP) E. unfold kf_kept, kf_valid, kf_same_model, kf_same_tail; cbn. fin. eapply valid_length; [exact Vx|apply E]. Qed.
Lemma kept_P n (f : kalman T) P : kf_valid c n f -> same_tail n n (kf_P f) P -> kf_kept c n f (w_P f P).
Proof. intros (VA & Vx & VP & VQ & Vpx & VtP) E. unfold kf_kept, kf_valid, kf_same_model, kf_same_tail; cbn. fin. eapply valid_length; [exact VP|apply E]. Qed.

Lemma b_prodt_ext n (A A' B : nat -> nat -> option T) i j : (forall k, k < n -> A i k = A' i k) -> b_prodt N n A B i j = b_prodt N n A' B i j.
Proof. intros H. apply dot_ext; auto. Qed.
Lemma torn_up_ext R C k (b a a' x : nat -> nat -> option T) : (forall i j, i < R -> j < C -> a i j = a' i j) -> torn_up R C k b a x -> torn_up R C k b a' x.
Proof. intros H [Hk HT]. split; [exact Hk|]. intros i j Hi Hj. rewrite <- H by assumption. apply HT; assumption. Qed.
Lemma torn_down_ext R C k (b b' a a' x : nat -> nat -> option T) : (forall i j, i < R -> j < C -> a i j = a' i j) -> (forall i j, i < R -> j < C -> b i j = b' i j) -> torn_down R C k b a x -> torn_down R C k b' a' x.
Proof. intros H H' [Hk HT]. split; [exact Hk|]. intros i j Hi Hj. rewrite <- H, <- H' by assumption. apply HT; assumption. Qed.

(** ** predictions *)
Lemma predict_x_left n (f : kalman T) : 1 <= n -> kf_valid c n f ->
  cwp (predict_x_cr c N n f)
    (fun f' => kf_kept c n f f' /\ kf_P f' = kf_P f /\ forall i, i < n -> cell 1 (kf_x f') i 0 = b_prodv N n (cell n (kf_A f)) (cell 1 (kf_x f)) i 0)
    (fun f' p => kf_kept c n f f' /\ untouched f f' /\ no_value n 1 (b_prodv N n (cell n (kf_A f)) (cell 1 (kf_x f)))).
Proof.
  intros Hn Vf. pose proof Vf as (VA & Vx & VP & VQ & Vpx & VtP).
  destruct (predict_x_cr c N n f) as [f'|f' p] eqn:E; cbn [cwp].
  - assert (E' : predict_x c N n f = Ok f') by (rewrite <- er_predict_x, E; reflexivity).
    pose proof (predict_x_wp c N n f Hn Vf) as W. rewrite E' in W. destruct (predict_x_bits c N n f f' Hn Vf E') as (Hx & _ & HP & _). split; [exact W|]. split; assumption.
  - unfold predict_x_cr, mult_rowvector_cr in E.
    pose proof (er_gen_mult_rowvector c N (fun _ t => Ok t) n n (kf_A f) (kf_x f) (kf_px f)) as Er.
    pose proof (keep_gen_mult_rowvector c N (length (kf_px f)) (fun _ t => Ok t) n n (kf_A f) (kf_x f) (kf_px f) eq_refl) as Kp.
    pose proof (mult_rowvector_cellwise c N n n (kf_A f) (kf_x f) (kf_px f) Hn VA Vx Vpx) as W. unfold mult_rowvector in W. rewrite <- Er in W.
    destruct (gen_mult_rowvector_cr _ _ _ _ _ _ _ _) as [px|px q]; cbn [within erase allc cwp] in *.
    + exfalso. assert (Vp : valid c n 1 px) by (eapply valid_length; eauto).
      pose proof (copy_to_returns c n 1 px (kf_x f) Hn (le_n 1) Vp Vx) as R. destruct (copy_to_cr _ _ _ _ _); cbn in *; [discriminate|contradiction].
    + injection E as <- <-. split; [apply kept_px; assumption|]. split; [split; reflexivity|]. apply cellwise_panic in W as (i & j & v & Hi & Hj & _ & Hv). exists i, j. auto.
Qed.

(** replacing P by G, then adding Q; [tP] is A P *)
Lemma cov_left n (f : kalman T) st store tP : kf_valid c n f -> (forall o t, store o t = of_opt (st o t)) -> (forall o o' t, st o t = st o' t) ->
  length tP = length (kf_tP f) -> (forall i j, i < n -> j < n -> cell n tP i j = b_prod N n (cell n (kf_A f)) (cell n (kf_P f)) i j) ->
  forall G, (forall i j v, i < n -> j < n -> G i j = obind (APAt N n f i j) (fun t => st v t)) ->
  cwp (within (w_P (w_tP f tP)) (gen_mult_transb_cr c N store n n n tP (kf_A f) (kf_P f)) (fun P => cmap (w_P (w_tP f tP)) (add_inplace_b_cr c N n n (kf_Q f) P)))
    (fun _ => True) (fun f' _ => kf_kept c n f f' /\ kf_x f' = kf_x f /\ left_cov N n f G f').
Proof.
  intros Vf Hst Hst' EtP HtP G HG. pose proof Vf as (VA & Vx & VP & VQ & Vpx & VtP). pose proof (valid_length c n n _ _ VtP EtP) as VtP'.
  pose proof (kept_tP n f tP Vf EtP) as K1. pose proof (proj1 K1) as Vf1.
  pose proof (transb_left c N st store n n n tP (kf_A f) (kf_P f) Hst VtP' VA VP) as L.
  pose proof (gen_mult_transb_cellwise c N st store n n n tP (kf_A f) (kf_P f) Hst VtP' VA VP) as W. rewrite <- er_gen_mult_transb in W.
  assert (HG' : forall i j v, i < n -> j < n -> obind (dot N n (fun k => cell n tP i k) (fun k => cell n (kf_A f) j k)) (fun t => st v t) = G i j).
  { intros i j v Hi Hj. rewrite (HG i j v Hi Hj). unfold APAt, b_prodt. rewrite (dot_ext N n (fun k => cell n tP i k) (fun k => cell n (kf_A f) j k) (fun k => b_prod N n (cell n (kf_A f)) (cell n (kf_P f)) i k) (fun k => cell n (kf_A f) j k)); auto. }
  destruct (gen_mult_transb_cr _ _ _ _ _ _ _ _ _) as [P|P p]; cbn [within erase cwp] in *.
  - clear L. eapply cellwise_out in W; [|exact VP|reflexivity]. destruct W as (V2 & S2 & C2).
    pose proof (add_b_left c N n n (kf_Q f) P VQ V2) as L. destruct (add_inplace_b_cr _ _ _ _ _ _) as [P2|P2 p]; cbn [cmap cwp] in *; [trivial|].
    destruct L as (-> & S3 & k & HT). split; [eapply kept_trans; [exact K1|apply kept_P; [exact Vf1|eapply st_trans; [exact S2|exact S3]]]|]. split; [reflexivity|].
    right. exists k. eapply torn_down_ext; [| |exact HT].
    + intros i j Hi Hj. cbv beta. destruct (C2 i j Hi Hj) as (v & _ & ->). rewrite HG' by assumption. unfold b_add. destruct (G i j); reflexivity.
    + intros i j Hi Hj. destruct (C2 i j Hi Hj) as (v & _ & ->). apply HG'; assumption.
  - destruct L as (-> & S3 & k & HT). split; [eapply kept_trans; [exact K1|apply kept_P; [exact Vf1|exact S3]]|]. split; [reflexivity|].
    left. exists k. eapply torn_up_ext; [|exact HT]. intros i j Hi Hj. cbv beta. destruct (cell_some c n n (kf_P f) i j VP Hi Hj) as (v & -> & _). cbn [obind]. apply HG'; assumption.
Qed.

Lemma mult_scratch M K U (a b cm : list T) : valid c M K a -> valid c K U b -> valid c M U cm ->
  cwp (mult_cr c N M K U a b cm) (fun r => mult c N M K U a b cm = Ok r /\ length r = length cm /\ valid c M U r /\ forall i j, i < M -> j < U -> cell U r i j = b_prod N K (cell K a) (cell U b) i j)
    (fun r _ => length r = length cm /\ no_value M U (b_prod N K (cell K a) (cell U b))).
Proof.
  intros Va Vb Vc. pose proof (er_mult c N M K U a b cm) as Er. pose proof (keep_mult c N (length cm) M K U a b cm eq_refl) as Kp. pose proof (mult_cellwise c N M K U a b cm Va Vb Vc) as W.
  rewrite <- Er in W. destruct (mult_cr _ _ _ _ _ _ _ _) as [r|r p]; cbn [erase allc cwp] in *.
  - split; [symmetry; exact Er|]. split; [exact Kp|]. eapply cellwise_out in W; [|exact Vc|reflexivity]. destruct W as (V & _ & C). split; [exact V|]. intros i j Hi Hj. destruct (C i j Hi Hj) as (? & _ & ->). reflexivity.
  - split; [exact Kp|]. apply cellwise_panic in W as (i & j & v & Hi & Hj & _ & Hv). exists i, j. auto.
Qed.

Lemma predict_P_left n (f : kalman T) : kf_valid c n f ->
  cwp (predict_P_cr c N n f) (fun _ => True) (fun f' p => kf_kept c n f f' /\ kf_x f' = kf_x f /\ left_predict_P N n None f f').
Proof.
  intros Vf. pose proof Vf as (VA & Vx & VP & VQ & Vpx & VtP). unfold predict_P_cr. apply cwp_within. eapply cwp_mono; [apply (mult_scratch n n n (kf_A f) (kf_P f) (kf_tP f) VA VP VtP)| |]; cbv beta.
  - intros tP (_ & L & V & C). cbv zeta. eapply cwp_mono; [eapply (cov_left n f (fun _ t => Some t) (fun _ t => Ok t) tP Vf); [reflexivity|reflexivity|exact L|exact C|]|auto|].
    + intros i j v Hi Hj. instantiate (1 := APAt N n f). destruct (APAt N n f i j); reflexivity.
    + intros f' p (K & X & LC). split; [exact K|]. split; [exact X|]. right. exact LC.
  - intros tP p (L & NV). split; [apply kept_tP; assumption|]. split; [reflexivity|]. left. split; [reflexivity|exact NV].
Qed.
Lemma predict_P_tuned_left n lam (f : kalman T) : kf_valid c n f ->
  cwp (predict_P_tuned_cr c N n lam f) (fun _ => True) (fun f' p => kf_kept c n f f' /\ kf_x f' = kf_x f /\ left_predict_P N n (Some lam) f f').
Proof.
  intros Vf. pose proof Vf as (VA & Vx & VP & VQ & Vpx & VtP). unfold predict_P_tuned_cr.
  assert (Ef : bind (n_mul N lam lam) (fun l2 => n_recip N l2) = of_opt (obind (o_mul N lam lam) (o_recip N))).
  { unfold n_mul, n_recip. destruct (o_mul N lam lam); reflexivity. }
  rewrite Ef. destruct (obind (o_mul N lam lam) (o_recip N)) as [g|] eqn:Eg; cbn [of_opt calc].
  2:{ cbn [cwp]. split; [apply kept_refl, Vf|]. split; [reflexivity|]. left. split; [reflexivity|]. left. exact Eg. }
  apply cwp_within. eapply cwp_mono; [apply (mult_scratch n n n (kf_A f) (kf_P f) (kf_tP f) VA VP VtP)| |]; cbv beta.
  - intros tP (_ & L & V & C). cbv zeta. eapply cwp_mono; [eapply (cov_left n f (fun _ t => o_mul N t g) (fun _ t => n_mul N t g) tP Vf); [reflexivity|reflexivity|exact L|exact C|]|auto|].
    + intros i j v Hi Hj. instantiate (1 := fun i j => b_mul N (APAt N n f i j) (Some g)). reflexivity.
    + intros f' p (K & X & LC). split; [exact K|]. split; [exact X|]. right. exists g. split; [exact Eg|exact LC].
  - intros tP p (L & NV). split; [apply kept_tP; assumption|]. split; [reflexivity|]. left. split; [reflexivity|]. right. exact NV.
Qed.

(** the panic of a call that never comes from a closure *)
Lemma left_np {S} (m : cr S) (r : res S) Q (E : S -> panic -> Prop) : erase m = r -> wp r Q (arith_only N) -> cwp m (fun _ => True) E -> forall s p, m = Unwound s p -> arith_only N p /\ E s p.
Proof. intros <- W H s p ->. split; [exact W|exact H]. Qed.

Ltac use_np f' p er w E := match goal with |- arith_only N p /\ ?G => let E' := eval pattern f', p in G in match E' with ?E0 f' p => apply (left_np _ _ _ E0 er w) in E; [exact E|clear E f' p] end end.

(** a prediction that did not return: the state is the old one (and so is P), or the predicted one *)
Definition x_done n (f : kalman T) (X : nat -> nat -> option T) (f' : kalman T) : Prop := forall i, i < n -> cell 1 (kf_x f') i 0 = X i 0.
Lemma left_P_eq n lam (f f1 f' : kalman T) : kf_A f1 = kf_A f -> kf_P f1 = kf_P f -> kf_Q f1 = kf_Q f -> left_predict_P N n lam f1 f' -> left_predict_P N n lam f f'.
Proof. unfold left_predict_P, left_cov, APAt. intros -> -> ->. auto. Qed.

Theorem predict_left n (f f' : kalman T) p : 1 <= n -> kf_valid c n f -> predict_cr c N n f = Unwound f' p ->
  arith_only N p /\ kf_kept c n f f' /\
  ((untouched f f' /\ no_value n 1 (b_prodv N n (cell n (kf_A f)) (cell 1 (kf_x f)))) \/
   ((forall i, i < n -> cell 1 (kf_x f') i 0 = b_prodv N n (cell n (kf_A f)) (cell 1 (kf_x f)) i 0) /\ left_predict_P N n None f f')).
Proof.
  intros Hn Vf E. use_np f' p (er_predict c N n f) (predict_wp c N n f Hn Vf) E. unfold predict_cr. apply cwp_within.
  eapply cwp_mono; [apply (predict_x_left n f Hn Vf)| |]; cbv beta.
  - intros f1 (K & HP & Hx). eapply cwp_mono; [apply (predict_P_left n f1 (proj1 K))|auto|]. cbv beta. intros f2 q (K2 & X2 & L). split; [eapply kept_trans; eauto|]. right.
    split; [rewrite X2; exact Hx|]. destruct K as (_ & (EA & EQ) & _). eapply left_P_eq; eauto.
  - intros f1 q (K & U & NV). split; [exact K|]. left. auto.
Qed.
Theorem predict_tuned_left n lam (f f' : kalman T) p : 1 <= n -> kf_valid c n f -> predict_tuned_cr c N n lam f = Unwound f' p ->
  arith_only N p /\ kf_kept c n f f' /\
  ((untouched f f' /\ no_value n 1 (b_prodv N n (cell n (kf_A f)) (cell 1 (kf_x f)))) \/
   ((forall i, i < n -> cell 1 (kf_x f') i 0 = b_prodv N n (cell n (kf_A f)) (cell 1 (kf_x f)) i 0) /\ left_predict_P N n (Some lam) f f')).
Proof.
  intros Hn Vf E. use_np f' p (er_predict_tuned c N n lam f) (predict_tuned_wp c N n lam f Hn Vf) E. unfold predict_tuned_cr. apply cwp_within.
  eapply cwp_mono; [apply (predict_x_left n f Hn Vf)| |]; cbv beta.
  - intros f1 (K & HP & Hx). eapply cwp_mono; [apply (predict_P_tuned_left n lam f1 (proj1 K))|auto|]. cbv beta. intros f2 q (K2 & X2 & L). split; [eapply kept_trans; eauto|]. right.
    split; [rewrite X2; exact Hx|]. destruct K as (_ & (EA & EQ) & _). eapply left_P_eq; eauto.
  - intros f1 q (K & U & NV). split; [exact K|]. left. auto.
Qed.

Lemma predict_x_nl_left n who h (f : kalman T) : 1 <= n -> kf_valid c n f -> closure_keeps c n n who h ->
  cwp (predict_x_nonlinear_cr c n h f)
    (fun f' => kf_kept c n f f' /\ kf_P f' = kf_P f /\ exists out, h (kf_x f) (kf_px f) = Returned out /\ forall i, i < n -> cell 1 (kf_x f') i 0 = cell 1 out i 0)
    (fun f' p => kf_kept c n f f' /\ untouched f f' /\ who p /\ exists out, h (kf_x f) (kf_px f) = Unwound out p).
Proof.
  intros Hn Vf Hh. pose proof Vf as (VA & Vx & VP & VQ & Vpx & VtP). unfold predict_x_nonlinear_cr. pose proof (Hh (kf_x f) (kf_px f) Vx Vpx) as H.
  assert (KP : forall px, valid c n 1 px -> kf_kept c n f (w_px f px)).
  { intros px V. unfold kf_kept, kf_valid, kf_same_model, kf_same_tail; cbn. fin. }
  destruct (h (kf_x f) (kf_px f)) as [px|px q] eqn:Eh; cbn [within cwp].
  - cbv zeta. pose proof (copy_to_returns c n 1 px (kf_x f) Hn (le_n 1) H Vx) as R. pose proof (copy_to_cellwise c n 1 px (kf_x f) Hn (le_n 1) H Vx) as W. rewrite <- er_copy_to in W.
    destruct (copy_to_cr _ _ _ _ _) as [x|x q]; cbn [cmap cwp erase] in *; [|contradiction]. eapply cellwise_out in W; [|exact Vx|reflexivity]. destruct W as (V & S & C).
    split; [eapply kept_trans; [exact (KP px H)|apply kept_x; [apply KP, H|exact S]]|]. split; [reflexivity|]. exists px. split; [reflexivity|].
    intros i Hi. change (kf_x (w_x (w_px f px) x)) with x. destruct (C i 0 Hi (le_n 1)) as (? & _ & ->). reflexivity.
  - destruct H as [V W]. split; [apply KP, V|]. split; [split; reflexivity|]. split; [exact W|]. exists px. reflexivity.
Qed.
Lemma predict_nl_gen n who h lam (f f' : kalman T) p (m : kalman T -> cr (kalman T)) : 1 <= n -> kf_valid c n f -> closure_keeps c n n who h ->
  (forall g, kf_valid c n g -> cwp (m g) (fun _ => True) (fun f' p => kf_kept c n g f' /\ kf_x f' = kf_x g /\ left_predict_P N n lam g f')) ->
  (forall g, wp (erase (m g)) (fun _ => True) (fun q => kf_valid c n g -> arith_only N q)) ->
  within (fun f => f) (predict_x_nonlinear_cr c n h f) m = Unwound f' p ->
  kf_kept c n f f' /\
  ((untouched f f' /\ who p /\ exists out, h (kf_x f) (kf_px f) = Unwound out p) \/
   (arith_only N p /\ exists out, h (kf_x f) (kf_px f) = Returned out /\ (forall i, i < n -> cell 1 (kf_x f') i 0 = cell 1 out i 0) /\ left_predict_P N n lam f f')).
Proof.
  intros Hn Vf Hh Hm HmE E. pose proof (predict_x_nl_left n who h f Hn Vf Hh) as H. destruct (predict_x_nonlinear_cr c n h f) as [f1|f1 q]; cbn [within cwp] in *.
  - destruct H as (K & HP & out & Ho & Hx). pose proof (Hm f1 (proj1 K)) as H2. pose proof (HmE f1) as H3. rewrite E in H2, H3. cbn [cwp erase wp] in H2, H3. destruct H2 as (K2 & X2 & L).
    split; [eapply kept_trans; eauto|]. right. split; [apply H3, K|]. exists out. split; [exact Ho|]. split; [rewrite X2; exact Hx|]. destruct K as (_ & (EA & EQ) & _). eapply left_P_eq; eauto.
  - injection E as <- <-. destruct H as (K & U & W & X). split; [exact K|]. left. auto.
Qed.
Lemma wp_imp {A} (m : res A) Q (E : panic -> Prop) (G : Prop) : (G -> wp m Q E) -> wp m (fun _ => True) (fun p => G -> E p).
Proof. destruct m; cbn; auto. Qed.
Theorem predict_nonlinear_left n who h (f f' : kalman T) p : 1 <= n -> kf_valid c n f -> closure_keeps c n n who h -> predict_nonlinear_cr c N n h f = Unwound f' p ->
  kf_kept c n f f' /\
  ((untouched f f' /\ who p /\ exists out, h (kf_x f) (kf_px f) = Unwound out p) \/
   (arith_only N p /\ exists out, h (kf_x f) (kf_px f) = Returned out /\ (forall i, i < n -> cell 1 (kf_x f') i 0 = cell 1 out i 0) /\ left_predict_P N n None f f')).
Proof.
  intros Hn Vf Hh E. eapply predict_nl_gen; [exact Hn|exact Vf|exact Hh|exact (predict_P_left n)| |exact E].
  intros g. rewrite er_predict_P. eapply wp_imp. intros V. apply (predict_P_wp c N n g V).
Qed.
Theorem predict_tuned_nonlinear_left n who lam h (f f' : kalman T) p : 1 <= n -> kf_valid c n f -> closure_keeps c n n who h -> predict_tuned_nonlinear_cr c N n lam h f = Unwound f' p ->
  kf_kept c n f f' /\
  ((untouched f f' /\ who p /\ exists out, h (kf_x f) (kf_px f) = Unwound out p) \/
   (arith_only N p /\ exists out, h (kf_x f) (kf_px f) = Returned out /\ (forall i, i < n -> cell 1 (kf_x f') i 0 = cell 1 out i 0) /\ left_predict_P N n (Some lam) f f')).
Proof.
  intros Hn Vf Hh E. eapply predict_nl_gen; [exact Hn|exact Vf|exact Hh|exact (predict_P_tuned_left n lam)| |exact E].
  intros g. rewrite er_predict_P_tuned. eapply wp_imp. intros V. apply (predict_P_tuned_wp c N n lam g V).
Qed.

(** ** control inputs *)
Theorem control_left n m (k k' : control T) (f f' : kalman T) p : kf_valid c n f -> ct_valid c n m k -> control_cr c N n m k f = Unwound (k', f') p ->
  arith_only N p /\ kf_kept c n f f' /\ ct_kept c n m k k' /\ left_control N n m k f f'.
Proof.
  intros Vf Vk E. pose proof (left_np _ _ _ (fun s (_ : panic) => kf_kept c n f (snd s) /\ ct_kept c n m k (fst s) /\ left_control N n m k f (snd s)) (er_control c N n m k f) (control_wp c N n m k f Vk Vf)) as L.
  apply L in E; [exact E|]. clear L E. pose proof Vf as (VA & Vx & VP & VQ & Vpx & VtP). pose proof Vk as (VB & Vu & VQc & VBQ).
  assert (Ck : ct_kept c n m k k) by (split; [exact Vk|split; [|split]; reflexivity]).
  unfold control_cr. rewrite (is_empty_valid c m 1 _ Vu), (is_empty_valid c n m _ VB). cbn [bind]. 
  destruct (m * 1 =? 0) eqn:E1; [exact I|]. cbn [calc]. destruct (n * m =? 0) eqn:E2; [exact I|]. apply Nat.eqb_neq in E1, E2. assert (Hm : 1 <= m) by lia. assert (Hn : 1 <= n) by (destruct n; lia).
  pose proof (rowvector_left c N (o_add N) (fun old t => n_add N old t) n m (ct_B k) (ct_u k) (kf_x f) (fun _ _ => eq_refl) Hm VB Vu Vx) as L.
  pose proof (multadd_rowvector_cellwise c N n m (ct_B k) (ct_u k) (kf_x f) Hm VB Vu Vx) as W. unfold multadd_rowvector in W. rewrite <- er_gen_mult_rowvector in W. unfold multadd_rowvector_cr.
  destruct (gen_mult_rowvector_cr _ _ _ _ _ _ _ _) as [x|x p']; cbn [within erase cwp] in *.
  2:{ destruct L as (-> & S & q & HT). cbn [fst snd]. split; [apply kept_x; assumption|]. split; [exact Ck|]. left. split; [reflexivity|]. exists q. eapply torn_up_ext; [|exact HT].
      intros i j Hi Hj. assert (j = 0) by lia. subst j. cbv beta. unfold b_add, b_prodv. destruct (cell 1 (kf_x f) i 0); reflexivity. }
  eapply cellwise_out in W; [|exact Vx|reflexivity]. destruct W as (V1 & S1 & C1). pose proof (kept_x n f x Vf S1) as K1. pose proof (proj1 K1) as Vf1.
  assert (X1 : forall i, i < n -> cell 1 x i 0 = b_add N (cell 1 (kf_x f) i 0) (b_prodv N m (cell m (ct_B k)) (cell 1 (ct_u k)) i 0)).
  { intros i Hi. destruct (C1 i 0 Hi (le_n 1)) as (v & -> & ->). reflexivity. }
  apply cwp_within. eapply cwp_mono; [apply (mult_scratch n m m (ct_B k) (ct_Q k) (ct_BQ k) VB VQc VBQ)| |]; cbv beta.
  - intros BQ (_ & LBQ & VBQ' & CBQ). cbv zeta. apply cwp_cmap. cbn [w_BQ w_x ct_B kf_P].
    assert (Ck' : ct_kept c n m k (w_BQ k BQ)) by (split; [unfold ct_valid; cbn; auto|split; [|split]; reflexivity]).
    eapply cwp_mono; [apply (transb_left c N (o_add N) (fun old t => n_add N old t) n m n BQ (ct_B k) (kf_P f) (fun _ _ => eq_refl) VBQ' VB VP)|auto|]. cbv beta.
    intros P q (-> & S2 & kk & HT). cbn [fst snd]. split; [eapply kept_trans; [exact K1|apply kept_P; [exact Vf1|exact S2]]|]. split; [exact Ck'|]. right. split; [exact X1|]. right. exists kk.
    eapply torn_up_ext; [|exact HT]. intros i j Hi Hj. cbv beta. unfold b_add. destruct (cell n (kf_P f) i j); [|reflexivity]. cbn [obind]. unfold b_prodt.
    rewrite (dot_ext N m (fun k0 => cell m BQ i k0) (fun k0 => cell m (ct_B k) j k0) (fun k0 => b_prod N m (cell m (ct_B k)) (cell m (ct_Q k)) i k0) (fun k0 => cell m (ct_B k) j k0)); auto.
  - intros BQ q (LBQ & NV). cbn [fst snd]. split; [exact K1|]. split; [split; [unfold ct_valid; cbn; fin; eapply valid_length; eauto|split; [|split]; reflexivity]|]. right. split; [exact X1|]. left. split; [reflexivity|exact NV].
Qed.

(** ** corrections *)
Lemma scratch {old : list T} (m : cr (list T)) (r : res (list T)) : erase m = r -> allc (fun l => length l = length old) m ->
  cwp m (fun l => r = Ok l /\ length l = length old) (fun l _ => length l = length old).
Proof. intros <- K. destruct m; cbn in *; auto. Qed.

Lemma update_left n m (o : observation T) (f : kalman T) : 1 <= n -> 1 <= m -> ob_valid c n m o -> kf_valid c n f ->
  cwp (update_cr c N n m o f) (fun _ => True)
    (fun s _ => kf_kept c n f (snd s) /\ ob_kept c n m o (fst s) /\ left_update N n m (cell 1 (ob_y o)) o f (fst s) (snd s)).
Proof.
  intros Hn Hm Vo Vf. pose proof Vf as (VA & Vx & VP & VQ & Vpx & VtP). pose proof Vo as (VH & Vz & VR & Vy & VS & VK & VSinv & VHP & VPHt & VKHP).
  assert (K0 : kf_kept c n f f) by (apply kept_refl, Vf).
  assert (U0 : untouched f f) by (split; reflexivity).
  assert (EARLY : forall o', ob_kept c n m o o' -> kf_kept c n f f /\ ob_kept c n m o o' /\ left_update N n m (cell 1 (ob_y o)) o f o' f).
  { intros o' Ko. split; [exact K0|]. split; [exact Ko|]. left. exact U0. }
  unfold update_cr, mult_transb_cr, multadd_rowvector_cr. cbv zeta.
  apply cwp_within. eapply cwp_mono; [apply (mult_scratch m n n (ob_H o) (kf_P f) (ob_HP o) VH VP VHP)| |]; cbv beta; [|intros HP q (L & _); cbn [fst snd]; apply EARLY; split; [unfold ob_valid; cbn; fin; (eapply valid_length; [|eassumption]; assumption)|split; [|split]; reflexivity]].
  intros HP (E1 & L1 & V1 & C1). 
  apply cwp_within. eapply cwp_mono; [apply (@scratch (ob_S o) _ _ (er_gen_mult_transb c N (fun _ t => Ok t) m n m HP (ob_H o) (ob_S o)) (keep_gen_mult_transb c N _ _ m n m HP (ob_H o) (ob_S o) eq_refl))| |]; cbv beta; [|intros Sm q L; cbn [fst snd]; apply EARLY; split; [unfold ob_valid; cbn; fin; (eapply valid_length; [|eassumption]; assumption)|split; [|split]; reflexivity]].
  intros S1 (E2 & L2). pose proof (mult_transb_cellwise c N m n m HP (ob_H o) (ob_S o) V1 VH VS) as W2. eapply cellwise_out in W2; [|exact VS|exact E2]. destruct W2 as (V2 & T2 & C2).
  apply cwp_within. eapply cwp_mono; [apply (@scratch S1 _ _ (er_add_inplace_a c N m m S1 (ob_R o)) (keep_add_inplace_a c N _ m m S1 (ob_R o) eq_refl))| |]; cbv beta; [|intros Sm q L; cbn [fst snd]; apply EARLY; split; [unfold ob_valid; cbn; fin; (eapply valid_length; [|eassumption]; assumption)|split; [|split]; reflexivity]].
  intros S2 (E3 & L3). pose proof (add_inplace_a_cellwise c N m m S1 (ob_R o) V2 VR) as W3. eapply cellwise_out in W3; [|exact V2|exact E3]. destruct W3 as (V3 & T3 & C3).
  apply cwp_within. eapply cwp_mono; [apply (@scratch S2 _ _ (er_cholesky c N m m S2) (keep_cholesky c N _ m m S2 eq_refl))| |]; cbv beta; [|intros Sm q L; cbn [fst snd]; apply EARLY; split; [unfold ob_valid; cbn; fin; (eapply valid_length; [|eassumption]; assumption)|split; [|split]; reflexivity]].
  intros Lf (E4 & L4). pose proof (valid_length c m m _ _ V3 L4) as VL. apply bind_Ok in E4 as ([b Lf'] & E4 & EL). cbn [snd] in EL. injection EL as ->.
  destruct (cholesky_bits c N m S2 b Lf Hm V3 E4) as (TL & HL).
  apply cwp_within. eapply cwp_mono; [apply (@scratch (ob_Sinv o) _ _ (er_invert c N m Lf (ob_Sinv o)) (keep_invert c N _ m Lf (ob_Sinv o) eq_refl))| |]; cbv beta; [|intros Sm q L; cbn [fst snd]; apply EARLY; split; [unfold ob_valid; cbn; fin; (eapply valid_length; [|eassumption]; assumption)|split; [|split]; reflexivity]].
  intros Si (E5 & L5). pose proof (valid_length c m m _ _ VSinv L5) as VI. destruct (invert_bits c N m Lf (ob_Sinv o) Si Hm VL VSinv E5) as (TI & HI).
  apply cwp_within. eapply cwp_mono; [apply (@scratch (ob_PHt o) _ _ (er_gen_mult_transb c N (fun _ t => Ok t) n n m (kf_P f) (ob_H o) (ob_PHt o)) (keep_gen_mult_transb c N _ _ n n m (kf_P f) (ob_H o) (ob_PHt o) eq_refl))| |]; cbv beta; [|intros Sm q L; cbn [fst snd]; apply EARLY; split; [unfold ob_valid; cbn; fin; (eapply valid_length; [|eassumption]; assumption)|split; [|split]; reflexivity]].
  intros PHt (E6 & L6). pose proof (mult_transb_cellwise c N n n m (kf_P f) (ob_H o) (ob_PHt o) VP VH VPHt) as W6. eapply cellwise_out in W6; [|exact VPHt|exact E6]. destruct W6 as (V6 & T6 & C6).
  apply cwp_within. eapply cwp_mono; [apply (mult_scratch n m m PHt Si (ob_K o) V6 VI VK)| |]; cbv beta; [|intros K q (L & _); cbn [fst snd]; apply EARLY; split; [unfold ob_valid; cbn; fin; (eapply valid_length; [|eassumption]; assumption)|split; [|split]; reflexivity]].
  intros K (E7 & L7 & V7 & C7).
  (* the gain is complete *)
  assert (G : b_gain N n m (cell n (ob_H o)) (cell m (ob_R o)) (cell n (kf_P f)) (cell m Lf) (cell m Si) (cell m K)).
  { exists (cell m S2). split.
    - intros i j Hi Hj. destruct (C3 i j Hi Hj) as (v & E & ->). destruct (C2 i j Hi Hj) as (w & _ & Ew). rewrite E in Ew.
      unfold b_add, b_prodt. rewrite <- (dot_ext N n (fun k => cell n HP i k) (fun k => cell n (ob_H o) j k)); [rewrite <- Ew; reflexivity| |auto]. intros k Hk. apply C1; assumption.
    - split; [destruct b; auto|]. split; [exact HI|]. intros i j Hi Hj. rewrite (C7 i j Hi Hj). apply dot_ext; [|auto]. intros k Hk. destruct (C6 i k Hi Hk) as (? & _ & ->). reflexivity. }
  pose proof (rowvector_left c N (o_add N) (fun old t => n_add N old t) n m K (ob_y o) (kf_x f) (fun _ _ => eq_refl) Hm V7 Vy Vx) as L.
  pose proof (multadd_rowvector_cellwise c N n m K (ob_y o) (kf_x f) Hm V7 Vy Vx) as W. unfold multadd_rowvector in W. rewrite <- er_gen_mult_rowvector in W.
  cbn [w_K w_PHt w_Sinv w_S w_HP ob_y ob_H ob_KHP ob_HP].
  destruct (gen_mult_rowvector_cr _ _ _ _ _ _ _ _) as [x|x p']; cbn [within erase cwp] in *.
  2:{ destruct L as (-> & S & q & HT). cbn [fst snd]. split; [apply kept_x; assumption|]. split; [split; [unfold ob_valid; cbn; fin|split; [|split]; reflexivity]|]. right. cbv zeta. cbn [ob_K ob_S ob_Sinv w_x kf_P kf_x].
      split; [exact G|]. left. split; [reflexivity|]. exists q. eapply torn_up_ext; [|exact HT].
      intros i j Hi Hj. assert (j = 0) by lia. subst j. cbv beta. unfold b_add, b_prodv. destruct (cell 1 (kf_x f) i 0); reflexivity. }
  clear L. eapply cellwise_out in W; [|exact Vx|reflexivity]. destruct W as (V8 & S8 & C8). pose proof (kept_x n f x Vf S8) as K1. pose proof (proj1 K1) as Vf1.
  assert (X1 : forall i, i < n -> cell 1 x i 0 = b_add N (cell 1 (kf_x f) i 0) (b_prodv N m (cell m K) (cell 1 (ob_y o)) i 0)).
  { intros i Hi. destruct (C8 i 0 Hi (le_n 1)) as (v & -> & ->). reflexivity. }
  apply cwp_within. eapply cwp_mono; [apply (mult_scratch m n n (ob_H o) (kf_P f) HP VH VP V1)| |]; cbv beta.
  2:{ intros HP' q (_ & i & j & Hi & Hj & Hv). exfalso. rewrite <- (C1 i j Hi Hj) in Hv. exact (cell_total c m n HP i j V1 Hi Hj Hv). }
  intros HP' (_ & L9 & V9 & C9).
  assert (EK : forall i j, i < n -> j < n -> b_prod N m (cell m K) (cell n HP') i j = b_prod N m (cell m K) (b_prod N n (cell n (ob_H o)) (cell n (kf_P f))) i j).
  { intros i j Hi Hj. apply dot_ext; [auto|]. intros k Hk. apply C9; assumption. }
  cbn [w_KHP w_HP ob_K ob_KHP].
  apply cwp_within. eapply cwp_mono; [apply (mult_scratch n m n K HP' (ob_KHP o) V7 V9 VKHP)| |]; cbv beta.
  2:{ intros KHP q (L & i & j & Hi & Hj & Hv). cbn [fst snd]. split; [exact K1|]. split; [split; [unfold ob_valid; cbn; fin; (eapply valid_length; [|eassumption]; assumption)|split; [|split]; reflexivity]|]. right. cbv zeta. cbn [ob_K ob_S ob_Sinv w_x kf_P kf_x].
      split; [exact G|]. right. split; [exact X1|]. left. split; [reflexivity|]. exists i, j. split; [exact Hi|]. split; [exact Hj|]. rewrite <- EK; assumption. }
  intros KHP (_ & L10 & V10 & C10). apply cwp_cmap. eapply cwp_mono; [apply (sub_a_left c N n n (kf_P f) KHP VP V10)|auto|]. cbv beta.
  intros P q (-> & S11 & k & HT). cbn [fst snd]. split; [eapply kept_trans; [exact K1|apply kept_P; [exact Vf1|exact S11]]|]. split; [split; [unfold ob_valid; cbn; fin|split; [|split]; reflexivity]|]. right. cbv zeta. cbn [ob_K ob_S ob_Sinv w_x w_P kf_P kf_x].
  split; [exact G|]. right. split; [exact X1|]. right. exists k. eapply torn_down_ext; [|reflexivity|exact HT].
  intros i j Hi Hj. cbv beta. unfold b_sub. destruct (cell n (kf_P f) i j); [|reflexivity]. cbn [obind]. rewrite (C10 i j Hi Hj), EK by assumption. reflexivity.
Qed.

Lemma set_w_y n m (o : observation T) y : ob_valid c n m o -> valid c m 1 y -> ob_valid c n m (w_y o y).
Proof. intros (VH & Vz & VR & Vy & VS & VK & VSinv & VHP & VPHt & VKHP) V. unfold ob_valid; cbn; fin. Qed.

(** from the predicted measurement hx on *)
Lemma innovate_left n m (o : observation T) (f : kalman T) hx : 1 <= n -> 1 <= m -> ob_valid c n m o -> kf_valid c n f -> valid c m 1 hx ->
  cwp (within (fun y => (w_y o y, f)) (sub_inplace_b_cr c N m 1 (ob_z o) hx) (fun y => update_cr c N n m (w_y o y) f)) (fun _ => True)
    (fun s _ => kf_kept c n f (snd s) /\ ob_kept c n m o (fst s) /\ exists y : nat -> nat -> option T,
       (untouched f (snd s) \/ forall i, i < m -> y i 0 = b_sub N (cell 1 (ob_z o) i 0) (cell 1 hx i 0)) /\ left_update N n m y o f (fst s) (snd s)).
Proof.
  intros Hn Hm Vo Vf Vh. pose proof Vo as (VH & Vz & VR & Vy & _).
  apply cwp_within. eapply cwp_mono; [apply (@scratch hx _ _ (er_sub_inplace_b c N m 1 (ob_z o) hx) (keep_sub_inplace_b c N _ m 1 (ob_z o) hx eq_refl))| |]; cbv beta.
  - intros y (E & L). pose proof (sub_inplace_b_cellwise c N m 1 (ob_z o) hx Vz Vh) as W. eapply cellwise_out in W; [|exact Vh|exact E]. destruct W as (V & _ & C).
    eapply cwp_mono; [apply (update_left n m (w_y o y) f Hn Hm (set_w_y n m o y Vo V) Vf)|auto|]. cbv beta. intros [o' f'] q (K1 & K2 & LU). cbn [fst snd] in *.
    split; [exact K1|]. split; [exact K2|]. exists (cell 1 y). split; [|exact LU]. right. intros i Hi. destruct (C i 0 Hi (le_n 1)) as (v & -> & ->). unfold b_sub. destruct (cell 1 (ob_z o) i 0); reflexivity.
  - intros y q L. cbn [fst snd]. split; [apply kept_refl, Vf|]. split; [split; [apply set_w_y; [exact Vo|(eapply valid_length; [|eassumption]; assumption)]|split; [|split]; reflexivity]|].
    exists (fun _ _ => None). split; left; split; reflexivity.
Qed.

Theorem correct_left n m (o o' : observation T) (f f' : kalman T) p : 1 <= n -> 1 <= m -> ob_valid c n m o -> kf_valid c n f -> correct_cr c N n m o f = Unwound (o', f') p ->
  arith_only N p /\ kf_kept c n f f' /\ ob_kept c n m o o' /\ exists y : nat -> nat -> option T,
    (untouched f f' \/ forall i, i < m -> y i 0 = b_sub N (cell 1 (ob_z o) i 0) (b_prodv N n (cell n (ob_H o)) (cell 1 (kf_x f)) i 0)) /\ left_update N n m y o f o' f'.
Proof.
  intros Hn Hm Vo Vf E. pose proof Vf as (VA & Vx & VP & VQ & Vpx & VtP). pose proof Vo as (VH & Vz & VR & Vy & _).
  pose proof (left_np _ _ _ (fun s (_ : panic) => kf_kept c n f (snd s) /\ ob_kept c n m o (fst s) /\ exists y : nat -> nat -> option T,
    (untouched f (snd s) \/ forall i, i < m -> y i 0 = b_sub N (cell 1 (ob_z o) i 0) (b_prodv N n (cell n (ob_H o)) (cell 1 (kf_x f)) i 0)) /\ left_update N n m y o f (fst s) (snd s))
    (er_correct c N n m o f) (correct_wp c N n m o f Hn Hm Vo Vf)) as L.
  apply L in E; [exact E|]. clear L E. unfold correct_cr, mult_rowvector_cr.
  apply cwp_within. eapply cwp_mono; [apply (@scratch (ob_y o) _ _ (er_gen_mult_rowvector c N (fun _ t => Ok t) m n (ob_H o) (kf_x f) (ob_y o)) (keep_gen_mult_rowvector c N _ _ m n (ob_H o) (kf_x f) (ob_y o) eq_refl))| |]; cbv beta.
  - intros hx (E & L). pose proof (mult_rowvector_cellwise c N m n (ob_H o) (kf_x f) (ob_y o) Hn VH Vx Vy) as W. eapply cellwise_out in W; [|exact Vy|exact E]. destruct W as (V & _ & C).
    eapply cwp_mono; [apply (innovate_left n m o f hx Hn Hm Vo Vf V)|auto|]. cbv beta. intros [o1 f1] q (K1 & K2 & y & Hy & LU). split; [exact K1|]. split; [exact K2|]. exists y. split; [|exact LU].
    destruct Hy as [Hy|Hy]; [left; exact Hy|right]. intros i Hi. rewrite Hy by exact Hi. destruct (C i 0 Hi (le_n 1)) as (? & _ & ->). reflexivity.
  - intros y q L. cbn [fst snd]. split; [apply kept_refl, Vf|]. split; [split; [apply set_w_y; [exact Vo|(eapply valid_length; [|eassumption]; assumption)]|split; [|split]; reflexivity]|].
    exists (fun _ _ => None). split; left; split; reflexivity.
Qed.

Theorem correct_nonlinear_left n m who h (o o' : observation T) (f f' : kalman T) p : 1 <= n -> 1 <= m -> ob_valid c n m o -> kf_valid c n f -> closure_keeps c m n who h ->
  correct_nonlinear_cr c N n m h o f = Unwound (o', f') p ->
  kf_kept c n f f' /\ ob_kept c n m o o' /\
  ((untouched f f' /\ who p /\ exists out, h (kf_x f) (ob_y o) = Unwound out p) \/
   (arith_only N p /\ exists out, h (kf_x f) (ob_y o) = Returned out /\ exists y : nat -> nat -> option T,
    (untouched f f' \/ forall i, i < m -> y i 0 = b_sub N (cell 1 (ob_z o) i 0) (cell 1 out i 0)) /\ left_update N n m y o f o' f')).
Proof.
  intros Hn Hm Vo Vf Hh E. pose proof Vf as (VA & Vx & VP & VQ & Vpx & VtP). pose proof Vo as (VH & Vz & VR & Vy & _). unfold correct_nonlinear_cr in E.
  pose proof (Hh (kf_x f) (ob_y o) Vx Vy) as H. destruct (h (kf_x f) (ob_y o)) as [hx|hx q] eqn:Eh; cbn [within] in E.
  - pose proof (innovate_left n m o f hx Hn Hm Vo Vf H) as L. rewrite E in L. cbn [cwp fst snd] in L. destruct L as (K1 & K2 & y & Hy & LU). split; [exact K1|]. split; [exact K2|]. right. split.
    + assert (P : wp (bind (sub_inplace_b c N m 1 (ob_z o) hx) (fun y => update_with_innovation c N n m (set_y o y) (kf_x f) (kf_P f))) (fun _ => True) (arith_only N)).
      { apply wp_bind. eapply wp_mono; [apply (sub_inplace_b_wp c N m 1 (ob_z o) hx Vz H)| |auto]. intros y1 (Vy1 & _). eapply wp_mono; [apply (update_wp c N n m (set_y o y1) (kf_x f) (kf_P f) Hn Hm); [apply set_w_y; assumption|assumption|assumption]|auto|auto]. }
      pose proof (f_equal erase E) as E'. rewrite erase_within, er_sub_inplace_b in E'. cbn [erase] in E'.
      destruct (sub_inplace_b c N m 1 (ob_z o) hx) as [y1|]; cbn [bind] in *; [|injection E' as ->; exact P]. rewrite er_update in E'. change (w_y o y1) with (set_y o y1) in E'. cbn [kf_x kf_P] in *.
      destruct (update_with_innovation _ _ _ _ _ _ _) as [[[? ?] ?]|]; cbn [bind] in E'; [discriminate|]. injection E' as ->. exact P.
    + exists hx. split; [reflexivity|]. exists y. split; [exact Hy|exact LU].
  - injection E as <- <- <-. destruct H as [V W]. split; [apply kept_refl, Vf|]. split; [split; [apply set_w_y; assumption|split; [|split]; reflexivity]|]. left. split; [split; reflexivity|]. split; [exact W|]. exists hx. reflexivity.
Qed.
End Calls.
