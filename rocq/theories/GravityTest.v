(** * Certificates for the programs of GravityFloat.v *)
From Coq Require Import ZArith QArith Qabs Qround Qreals Reals Lra Lqa Psatz Lia List.
From Flocq Require Import Core BinarySingleNaN.
From Verif Require Import Prelude Spec SpecBits Matrix Filter SpecFilter Wp Kernels FilterTwo History HistGen HistTwo SpecGen FloatNum SpecFloats SpecReal SpecRange SpecStable SpecTurn FloatGen FloatFlocq FloatOps FloatErr FloatPredict FloatFmt FloatUpdate FloatRange FloatTurn FloatSelect BitsProof BuildSim FloatWit TurnProof TurnRun SpecFixedRange SpecFixedGain FixedRange FixedStable FixedGain FixedCert LinPath ZPath FloatQ FloatUp FloatCert FloatTrack GravityFloat GravityLoop SpecStore StoreProof StoreExamples StaticProof.
Import ListNotations SpecFloat.

(** ** a reading: a distance and an error of at most er, added *)
Section Reading.
Variables (prec emax : Z).
Hypothesis HF : format_ok prec emax.
Open Scope Q_scope.
Definition read_ok (d : spec_float) (er tr w : Q) : bool :=
  sf_finite d && Qle_bool (Qabs (fq d - tr) + er + pow2 (- prec) * (Qabs (fq d) + er)) w && qlt_bool ((1 + pow2 (- prec)) * (Qabs (fq d) + er)) (pow2 emax).
Lemma reading_close d e er tr w : in_format prec emax d -> in_format prec emax e -> sf_finite e = true -> Qabs (fq e) <= er -> read_ok d er tr w = true ->
  sf_finite (SFadd prec emax d e) = true /\ Qabs (fq (SFadd prec emax d e) - tr) <= w.
Proof.
  intros Vd Ve Fe He E. assert (hprec : Prec_gt_0 prec) by (destruct HF; red; lia). assert (hmax : Prec_lt_emax prec emax) by apply HF.
  apply andb_prop in E. destruct E as (E & E3). apply andb_prop in E. destruct E as (E1 & E2). apply Qle_bool_iff, Qle_Rle in E2. apply qlt_bool_R in E3.
  rewrite !Q2R_plus, Q2R_mult, Q2R_plus, !Q2R_abs, Q2R_minus, Q2R_pow2, Q2R_fq in E2. rewrite Q2R_mult, !Q2R_plus, Q2R_1, Q2R_abs, !Q2R_pow2, Q2R_fq in E3. apply Qle_Rle in He. rewrite Q2R_abs, Q2R_fq in He.
  change (bpow radix2 (- prec)) with (uro prec) in *. change (bpow radix2 emax) with (too_big emax) in *. pose proof (uro_pos prec) as U0.
  pose proof (Rabs_triang (val d) (val e)) as TA.
  assert (M : (uro prec * Rabs (val d + val e) <= uro prec * (Rabs (val d) + Q2R er))%R) by (apply Rmult_le_compat_l; Lra.lra).
  assert (F : sf_finite (SFadd prec emax d e) = true).
  { apply (add_fin prec emax HF); auto. eapply Rle_lt_trans; [|exact E3]. Lra.nra. }
  split; [exact F|]. destruct (add_err_both prec emax hprec hmax d e Vd Ve F) as (B & _).
  apply Rle_Qle. rewrite Q2R_abs, Q2R_minus, Q2R_fq. replace (val (SFadd prec emax d e) - Q2R tr)%R with ((val (SFadd prec emax d e) - (val d + val e)) + ((val d - Q2R tr) + val e))%R by ring.
  eapply Rle_trans; [apply Rabs_triang|]. pose proof (Rabs_triang (val d - Q2R tr) (val e)). Lra.lra.
Qed.
End Reading.
Lemma qcl_one v : qcl 1 [v] 0 0 = fq v. Proof. reflexivity. Qed.

(** ** the error after T turns *)
Section Cert3.
Variables (prec emax : Z).
Hypothesis HF : format_ok prec emax.
Variables (f0 : kalman spec_float) (o0 : observation spec_float).
Hypothesis Lx : length (kf_x f0) = 3%nat.
Variables (T : nat) (Kl : list (list spec_float)).
Hypothesis HA : (length (kf_A f0) =? 9)%nat && fin_list (kf_A f0) && (length (ob_H o0) =? 3)%nat && fin_list (ob_H o0) && fin_list (kf_x f0) = true.
Open Scope Q_scope.
Notation s := (fun _ : nat => 0%nat).
Variables (sh q E P : positive) (uz ez : Z) (tr : nat -> nat -> Q) (tl : list ztab) (te : ztab) (Wb B x0 : nat -> Q) (Az Yz : list Z) (bl : list (list Z * list Z * list Z)).
Notation tab := (fun t => nth t tl te).
Notation bd := (fun t => nth t bl ([], [], [])).
Notation Kn := (fun t => nth t Kl []).
Hypothesis HS : sel_ok 3 1 s (ob_H o0) = true.
Hypothesis HC0 : bounds_ok prec emax 3 1 s (kf_A f0) sh uz ez Wb B Az Yz = true.
Hypothesis HC : all_lt T (track_ok emax 3 1 s (kf_A f0) (ob_H o0) Kn sh q E uz ez tr tab Wb B Az Yz bd) = true.
Hypothesis Hx0 : forall i, (i < 3)%nat -> qcl 1 (kf_x f0) i 0 - tr 0%nat i == x0 i.
Hypothesis Hsh : forallb (shape_ok 3 1) (te :: tl) = true.
Hypothesis HB : box_ok_ 3 1 T q E P tab Wb B x0 = true.
Variables (D Er : list spec_float) (er : Q).
Hypotheses (LD : (T <= length D)%nat) (LE : (T <= length Er)%nat) (FD : all_in_format prec emax D) (FE : all_in_format prec emax Er).
Hypothesis HRd : all_lt T (fun t => read_ok prec emax (nth t D (S754_zero false)) er (tr (S t) 0%nat) (Wb 0%nat)) = true.
Hypothesis HEr : forall t, (t < T)%nat -> sf_finite (nth t Er (S754_zero false)) = true /\ Qabs (fq (nth t Er (S754_zero false))) <= er.

(** states that follow the turns with these gains *)
Variables (xs : nat -> list spec_float).
Hypothesis Hxs0 : xs 0%nat = kf_x f0.
Hypothesis Hxs : forall t, (t < T)%nat -> turn_fact prec emax 3 1 s (kf_A f0) (ob_H o0) (xs t) (xs (S t)) (rdg prec emax D Er t) (Kn t).
Theorem cert_end : fin_matrix 3 1 (xs T) /\ forall i, (i < 3)%nat -> let k := zchain 3 1 q P (back tab T T) i in
    Qabs (inject_Z (Zpos P) * (qcl 1 (xs T) i 0 - tr T i) - qsum 3 (fun l => iz (fst (fst k)) l * x0 l)) <= zrest 3 1 q E B Wb (back tab T T) k.
Proof.
  pose proof HA as HA'. apply andb_prop in HA'. destruct HA' as (HA' & Fx).
  assert (IX : fin_matrix 3 1 (kf_x f0)) by (apply fin_list_matrix; [exact Lx|exact Fx]).
  assert (RD : forall t, (t < T)%nat -> sf_finite (SFadd prec emax (nth t D (S754_zero false)) (nth t Er (S754_zero false))) = true /\ Qabs (fq (SFadd prec emax (nth t D (S754_zero false)) (nth t Er (S754_zero false))) - tr (S t) 0%nat) <= Wb 0%nat).
  { intros t Ht. destruct (HEr t Ht) as (F1 & F2). apply (reading_close prec emax HF _ _ er); auto; try (apply (nth_fmt prec emax); assumption). exact (all_lt_spec _ _ HRd t Ht). }
  assert (TE : forall i, (i < 3)%nat -> let k := zchain 3 1 q P (back tab T T) i in fin_matrix 3 1 (xs T) /\
    Qabs (inject_Z (Zpos P) * dx xs tr T i - qsum 3 (fun l => iz (fst (fst k)) l * x0 l)) <= zrest 3 1 q E B Wb (back tab T T) k).
  { eapply (track_end prec emax 3 1 s (kf_A f0) (ob_H o0) Kn T xs (rdg prec emax D Er)); try eassumption.
    - intros t Ht i j Hi Hj. assert (i = 0%nat) by Lia.lia. assert (j = 0%nat) by Lia.lia. subst i j. exists (SFadd prec emax (nth t D (S754_zero false)) (nth t Er (S754_zero false))). split; [reflexivity|]. apply (RD t Ht).
    - rewrite Hxs0. exact IX.
    - intros t j Ht Hj. assert (j = 0%nat) by Lia.lia. subst j. unfold dw. rewrite (sel_dot 3 1 s (ob_H o0) HS 0 (fun l => tr (S t) l) Hj). unfold rdg. rewrite qcl_one. apply (RD t Ht).
    - intros i Hi. unfold dx. rewrite Hxs0. apply Hx0, Hi.
    - intros t. cbn [forallb] in Hsh. apply andb_prop in Hsh. destruct Hsh as (S1 & S2). destruct (Nat.lt_ge_cases t (length tl)) as [L|L]; [|rewrite nth_overflow by exact L; exact S1]. rewrite forallb_forall in S2. apply S2, nth_In, L. }
  split; [apply (TE 0%nat ltac:(Lia.lia))|]. intros i Hi. apply (TE i Hi).
Qed.
End Cert3.

(** what the loops need of the reference run *)
Section RefRun.
Variables (c : cfg) (prec emax : Z) (sz : bool).
Hypothesis Hc : (255 <= usize_max c)%nat.
Notation NN := (sf_num prec emax sz).
Variables (pr : cfg -> kalman spec_float -> res (kalman spec_float)).
Hypothesis Hpr1 : forall f r, pr tiny f = Ok r -> pr c f = Ok r.
Variables (f0 : kalman spec_float) (o0 : observation spec_float).
Variables (T : nat) (path : list (kalman spec_float * list spec_float)) (gE : kalman spec_float) (Kl : list (list spec_float)).
Hypothesis HP : iter_path (fref_turn prec emax sz 3 1 pr o0) T (with_x0 f0 3) = Some (path, gE).
Hypothesis HPK : map snd path = Kl.
Hypothesis HK : forallb (fun K => (length K =? 3)%nat && fin_list K) Kl = true.
Lemma ref_run : fst (nth 0 path (gE, [])) = with_x0 f0 3 /\
  forall t, (t < T)%nat -> exists g1 o', pr c (fst (nth t path (gE, []))) = Ok g1 /\ correct c NN 3 1 o0 g1 = Ok (o', fst (nth (S t) path (gE, []))) /\ ob_K o' = nth t Kl [] /\ fin_matrix 3 1 (nth t Kl []).
Proof.
  destruct (iter_step _ T _ _ _ [] HP) as (G0 & GS). split; [exact G0|]. assert (LP : length path = T) by (eapply iter_len; exact HP).
  intros t Ht. destruct (fref_turn_ok c prec emax sz 3 1 pr o0 _ _ _ Hc Hpr1 (GS t Ht)) as (g1 & o' & E1 & E2 & E3). exists g1, o'. split; [exact E1|]. split; [exact E2|].
  assert (EK : snd (nth t path (gE, [])) = nth t Kl []). { rewrite <- HPK. rewrite nth_indep with (d' := snd (gE, [])) by (rewrite map_length; Lia.lia). rewrite map_nth. reflexivity. }
  split; [congruence|]. rewrite forallb_forall in HK. assert (IN : In (nth t Kl []) Kl) by (apply nth_In; rewrite <- HPK, map_length; Lia.lia). specialize (HK _ IN). apply andb_prop in HK. destruct HK as (K1 & K2).
  apply fin_list_matrix; [apply Nat.eqb_eq, K1|exact K2].
Qed.
End RefRun.

(** the loop of the tests *)
Section TestRun.
Variables (c : cfg) (prec emax : Z) (sz : bool).
Hypothesis Hc : (255 <= usize_max c)%nat.
Hypothesis HF : format_ok prec emax.
Variables (pr : cfg -> kalman spec_float -> res (kalman spec_float)).
Hypothesis Hpr1 : forall f r, pr tiny f = Ok r -> pr c f = Ok r.
Hypothesis Hpr2 : forall f g g1, kf_cov c 3 f g -> kf_all_format prec emax f -> pr c g = Ok g1 -> exists f1, pr c f = Ok f1 /\ pred_step c prec emax 3 f f1 g1.
Variables (f0 : kalman spec_float) (o0 : observation spec_float).
Hypotheses (Vf : kf_valid c 3 f0) (Vo : ob_valid c 3 1 o0) (Ff : kf_all_format prec emax f0) (Fo : ob_format prec emax o0) (Lx : length (kf_x f0) = 3%nat) (Lz : length (ob_z o0) = 1%nat).
Variables (T : nat) (path : list (kalman spec_float * list spec_float)) (gE : kalman spec_float) (Kl : list (list spec_float)).
Hypothesis HP : iter_path (fref_turn prec emax sz 3 1 pr o0) T (with_x0 f0 3) = Some (path, gE).
Hypothesis HPK : map snd path = Kl.
Hypothesis HK : forallb (fun K => (length K =? 3)%nat && fin_list K) Kl = true.
Hypothesis HA : (length (kf_A f0) =? 9)%nat && fin_list (kf_A f0) && (length (ob_H o0) =? 3)%nat && fin_list (ob_H o0) && fin_list (kf_x f0) = true.
Hypothesis HS : sel_ok 3 1 (fun _ => 0%nat) (ob_H o0) = true.
Variables (D Er : list spec_float).
Hypotheses (LD : (T <= length D)%nat) (LE : (T <= length Er)%nat) (FD : all_in_format prec emax D) (FE : all_in_format prec emax Er).
Theorem test_run_path : exists xs fo, for_up T 0 (f0, o0) (test_body c prec emax sz 3 (pr c) D Er) = Ok fo /\ xs 0%nat = kf_x f0 /\ xs T = kf_x (fst fo) /\ length (xs T) = 3%nat /\ all_in_format prec emax (xs T) /\
  forall t, (t < T)%nat -> turn_fact prec emax 3 1 (fun _ => 0%nat) (kf_A f0) (ob_H o0) (xs t) (xs (S t)) (rdg prec emax D Er t) (nth t Kl []).
Proof.
  pose proof HA as HA'. apply andb_prop in HA'. destruct HA' as (HA' & Fx). apply andb_prop in HA'. destruct HA' as (HA' & FH). apply andb_prop in HA'. destruct HA' as (HA' & LH). apply andb_prop in HA'. destruct HA' as (LA & FA).
  apply Nat.eqb_eq in LA, LH.
  assert (IA : fin_matrix 3 3 (kf_A f0)) by (apply fin_list_matrix; [exact LA|exact FA]).
  assert (IH : fin_matrix 1 3 (ob_H o0)) by (apply fin_list_matrix; [exact LH|exact FH]).
  pose proof (sel_r 3 1 (fun _ => 0%nat) (ob_H o0) HS) as SR.
  destruct (ref_run c prec emax sz Hc pr Hpr1 f0 o0 T path gE Kl HP HPK HK) as (G0 & HG).
  assert (I0 : kf_inv c prec emax 3 f0 (fst (nth 0 path (gE, []))) f0).
  { rewrite G0. split; [apply with_x0_cov, Vf|]. split; [exact Ff|]. split; [reflexivity|exact Lx]. }
  assert (O0 : ob_inv c prec emax 3 o0 o0) by (split; [exact Vo|split; [exact Fo|split; [reflexivity|split; [reflexivity|exact Lz]]]]).
  exact (test_loop c prec emax sz HF 3 (fun _ => 0%nat) f0 o0 ltac:(Lia.lia) Vo IA IH SR (pr c) T (fun t => fst (nth t path (gE, []))) (fun t => nth t Kl []) Hpr2 HG I0 O0 D Er LD LE FD FE).
Qed.
End TestRun.
