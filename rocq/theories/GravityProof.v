(** * examples/gravity_fixed.rs for all readings *)
From Coq Require Import ZArith QArith Qabs Qround Lia Lqa Psatz.
From Verif Require Import Prelude Spec SpecBits Matrix Filter SpecFilter Wp Kernels FilterTwo HistGen HistTwo NumSim FixedNum SpecFixed SpecFixedRange SpecFixedGain SpecStore StoreProof StoreExamples BitsProof Defined FixedProof FixedRange FixedSteps FixedStable FixedGain LinPath ZPath FixedRun BuildSim FloatWit FixedWit FixedCert GravityFixed SpecGravity.
Open Scope Q_scope.

Definition kf_g : kalman Z := (mk_kalman [65536; 65536; 32768; 0; 65536; 65536; 0; 0; 65536] [0; 0; 393216] [6554; 0; 0; 0; 65536; 0; 0; 0; 65536] (repeat 0 9) (repeat 0 3) (repeat 0 9))%Z.
Definition ob_g : observation Z := (mk_obs [65536; 0; 0] [0] [32768] [0] [0] [0; 0; 0] [0] [0; 0; 0] [0; 0; 0] (repeat 0 9))%Z.

Definition pathC := Eval vm_compute in match ref_path 32 16 3 1 ob_g 42 (with_x kf_g (repeat 0%Z 3)) with Some (l, e) => l | None => [] end.
Definition gEC := Eval vm_compute in match ref_path 32 16 3 1 ob_g 42 (with_x kf_g (repeat 0%Z 3)) with Some (l, e) => e | None => kf_g end.
Definition KinfC := Eval vm_compute in match ref_turn 32 16 3 1 ob_g gEC with Some (_, K) => K | None => [] end.
Lemma HPC : ref_path 32 16 3 1 ob_g 42 (with_x kf_g (repeat 0%Z 3)) = Some (pathC, gEC).
Proof. vm_compute. reflexivity. Qed.
Lemma HEC : ref_turn 32 16 3 1 ob_g gEC = Some (gEC, KinfC).
Proof. vm_compute. reflexivity. Qed.
Definition ZlC : list Q := [4000].
Definition BlC : list Q := [7400; 5500; 3000].
Lemma HRC : forallb (room_ok 32 16 3 1 kf_g ob_g ZlC BlC) (KinfC :: map snd pathC) = true.
Proof. vm_compute. reflexivity. Qed.
Definition zt_of (K : list Z) : ztab :=
  let cl := closed 3 1 (qcell 16 3 (kf_A kf_g)) (qcell 16 3 (ob_H ob_g)) (qcell 16 1 K) in
  (map (fun k => map (fun i => Qfloor (cl i k * 131072)) (seq 0 3)) (seq 0 3), [map (fun v => (2 * v)%Z) K],
   map (fun i => Qceiling (q_turn_rounding 16 3 1 (qcell 16 3 (ob_H ob_g)) (qcell 16 1 K) i * 16777216)) (seq 0 3)).
Definition tlC : list ztab := Eval vm_compute in map (fun p => zt_of (snd p)) pathC.
Definition teC : ztab := Eval vm_compute in zt_of KinfC.
Lemma HTC : (length tlC =? 42)%nat && all_lt 42 (fun t => tab_ok 16 3 1 kf_g ob_g 17 16777216 (snd (nth t pathC (gEC, KinfC))) (nth t tlC teC)) = true.
Proof. vm_compute. reflexivity. Qed.
Lemma HTeC : tab_ok 16 3 1 kf_g ob_g 17 16777216 KinfC teC = true.
Proof. vm_compute. reflexivity. Qed.
Definition x0C : list Q := [0; 0; 6].
Definition ClC : list Q := [7390; 1500; 130].
Lemma HSC : stays_ok 3 1 42 40 ZlC BlC 17 16777216 tlC teC x0C ClC 1048576 = true.
Proof. vm_compute. reflexivity. Qed.

(** ** the setup *)
Lemma sim_gravity_init c1 c2 oc da : stricter c1 c2 -> forall f o,
  sim (x <- initialize_state_vector (kf_x f) ;; a <- initialize_state_transition_matrix c1 oc da (kf_A f) ;; p <- initialize_state_covariance_matrix c1 oc da (kf_P f) ;;
       h <- initialize_position_measurement_transformation_matrix c1 oc da (ob_H o) ;; r <- initialize_position_measurement_process_noise_matrix c1 (ob_R o) ;;
       Ok (mk_kalman a x p (kf_Q f) (kf_px f) (kf_tP f), mk_obs h (ob_z o) r (ob_y o) (ob_S o) (ob_K o) (ob_Sinv o) (ob_HP o) (ob_PHt o) (ob_KHP o)))
      (x <- initialize_state_vector (kf_x f) ;; a <- initialize_state_transition_matrix c2 oc da (kf_A f) ;; p <- initialize_state_covariance_matrix c2 oc da (kf_P f) ;;
       h <- initialize_position_measurement_transformation_matrix c2 oc da (ob_H o) ;; r <- initialize_position_measurement_process_noise_matrix c2 (ob_R o) ;;
       Ok (mk_kalman a x p (kf_Q f) (kf_px f) (kf_tP f), mk_obs h (ob_z o) r (ob_y o) (ob_S o) (ob_K o) (ob_Sinv o) (ob_HP o) (ob_PHt o) (ob_KHP o))).
Proof.
  intros H f o. unfold initialize_state_vector, initialize_state_transition_matrix, initialize_state_covariance_matrix, initialize_position_measurement_transformation_matrix, initialize_position_measurement_process_noise_matrix.
  cbv zeta. repeat first [apply sim_refl | apply sim_set_at; exact H | apply sim_bind; [|intros]].
Qed.
Lemma setup_ok c oc da : (255 <= usize_max c)%nat -> gravity_setup c oc da = Ok (kf_g, ob_g).
Proof.
  intros Hc. unfold gravity_setup.
  destruct (build_filter_ok c 0%Z 3) as (f & Ef & Ff); [apply small_alloc; [exact Hc|cbn; lia]|].
  destruct (build_observation_ok c 0%Z 3 1) as (o & Eo & Fo);
    [apply small_alloc; [exact Hc|cbn; lia]|apply small_alloc; [exact Hc|cbn; lia]|apply small_alloc; [exact Hc|cbn; lia]|].
  rewrite Ef, Eo. cbn [bind]. eapply sim_ok; [apply sim_gravity_init, tiny_stricter, Hc|].
  destruct f as [fA fx fP fQ fp ft], o as [oH oz oR oy oS oK oI oP oT oV]. cbn in Ff, Fo.
  destruct Ff as (-> & -> & -> & -> & -> & ->). destruct Fo as (-> & -> & -> & -> & -> & -> & -> & -> & -> & ->).
  destruct oc, da; vm_compute; reflexivity.
Qed.
Lemma kf_g_valid c : (255 <= usize_max c)%nat -> kf_valid c 3 kf_g.
Proof. intros Hc. red. vt Hc. Qed.
Lemma ob_g_valid c : (255 <= usize_max c)%nat -> ob_valid c 3 1 ob_g.
Proof. intros Hc. red. vt Hc. Qed.

(** ** the loop is a run of turns *)
Lemma loop_run c oc da (D E : list Z) : forall zs lo f o w', (forall t, (t < length zs)%nat -> exists d e, nth_error D (lo + t) = Some d /\ nth_error E (lo + t) = Some e /\ n_add (i16f16_num oc da) d e = Ok (hd 0%Z (nth t zs [])) /\ length (nth t zs []) = 1%nat) ->
  length (ob_z o) = 1%nat -> ob_valid c 3 1 o -> kf_valid c 3 f ->
  run c (i16f16_num oc da) 3 (mk_world f [] [(1%nat, o)]) (readings_ops zs) = Ok w' ->
  exists o', for_up (length zs) lo (f, o) (gravity_turn c oc da D E) = Ok (w_kf w', o') /\ length (kf_x (w_kf w')) = length (kf_x f).
Proof.
  induction zs as [|z zs IH]; intros lo f o w' HZ Lz Vo Vf R.
  - cbn in R |- *. injection R as <-. exists o. split; reflexivity.
  - destruct (HZ 0%nat ltac:(cbn; lia)) as (dd & ee & E1 & E2 & E3 & E4). rewrite Nat.add_0_r in E1, E2. cbn [nth] in E3, E4.
    destruct z as [|v [|? ?]]; [discriminate E4| |discriminate E4]. cbn [hd] in E3.
    cbn [readings_ops flat_map reading_ops app] in R. cbn [run step w_kf] in R. unfold i16f16_num in *.
    cbn [length for_up]. unfold gravity_turn at 1. unfold i16f16_num.
    destruct (predict c (fx_num 32 16 oc da) 3 f) as [f1|] eqn:P1; [|discriminate R]. cbn [bind] in R |- *. unfold set_kf in R. cbn [w_ct w_ob] in R.
    cbn [step run w_ob nth_error bind] in R. unfold set_ob in R. cbn [w_kf w_ct w_ob upd bind nth_error] in R.
    unfold rd. rewrite E1, E2. cbn [bind]. rewrite E3. cbn [bind]. unfold index_set, wr. rewrite Lz. cbn [Nat.ltb Nat.leb bind].
    assert (EU : put (ob_z o) [v] = upd (ob_z o) 0 v). { destruct (ob_z o) as [|a [|? ?]]; [discriminate Lz| |discriminate Lz]. reflexivity. }
    rewrite EU in R. set (o1 := mk_obs (ob_H o) (upd (ob_z o) 0 v) _ _ _ _ _ _ _ _) in *.
    destruct (correct c (fx_num 32 16 oc da) 3 1 o1 f1) as [(o2 & f2)|] eqn:P2; [|discriminate R]. cbn [bind] in R |- *. unfold set_kf in R. cbn [w_kf w_ct w_ob upd] in R.
    assert (Vo1 : ob_valid c 3 1 o1). { destruct Vo as (V1 & V2 & V3 & V4 & V5 & V6 & V7 & V8 & V9 & V10). unfold ob_valid. cbn [o1 ob_H ob_z ob_R ob_y ob_S ob_K ob_Sinv ob_HP ob_PHt ob_KHP].
      assert (V2' : valid c 1 1 (upd (ob_z o) 0 v)) by (rewrite <- EU; apply (put_valid c 1 1 _ _ V2)). tauto. }
    pose proof (predict_wp c (fx_num 32 16 oc da) 3 f ltac:(lia) Vf) as W1. rewrite P1 in W1. cbn [wp] in W1. destruct W1 as (Vf1 & _ & ((T1 & _) & _)).
    pose proof (correct_wp c (fx_num 32 16 oc da) 3 1 o1 f1 ltac:(lia) ltac:(lia) Vo1 Vf1) as W2. rewrite P2 in W2. cbn [wp fst snd] in W2. destruct W2 as (Vo2 & (_ & SZ & _) & Vf2 & _ & ((T2 & _) & _)).
    destruct (IH (S lo) f2 o2 w') as (o' & L1 & L2); auto.
    + intros t Ht. destruct (HZ (S t) ltac:(cbn; lia)) as (d' & e' & G1 & G2 & G3 & G4). exists d', e'. replace (S lo + t)%nat with (lo + S t)%nat by lia. auto.
    + rewrite SZ. cbn [o1 ob_z]. rewrite <- EU. destruct (ob_z o) as [|a [|? ?]]; [discriminate Lz| |discriminate Lz]. reflexivity.
    + exists o'. split; [exact L1|congruence].
Qed.

Definition rds (D E : list Z) : list (list Z) := map (fun t => [(nth t D 0%Z + nth t E 0%Z)%Z]) (seq 0 (length D)).
Lemma rds_len D E : length (rds D E) = length D.
Proof. unfold rds. rewrite map_length, seq_length. reflexivity. Qed.
Lemma rds_nth D E t : (t < length D)%nat -> nth t (rds D E) [] = [(nth t D 0%Z + nth t E 0%Z)%Z].
Proof. intros Ht. unfold rds. apply (nth_tab (fun t => [(nth t D 0%Z + nth t E 0%Z)%Z])), Ht. Qed.

Notation Ag := (qcell 16 3 (kf_A kf_g)). Notation Hg := (qcell 16 3 (ob_H ob_g)).
Notation gainC := (gain pathC gEC KinfC).
Lemma x0_ok i : (i < 3)%nat -> nth i x0C 0 == qcell 16 1 (kf_x kf_g) i 0.
Proof. destruct i as [|[|[|i]]]; [reflexivity..|lia]. Qed.
Lemma gravity_path c D E : (255 <= usize_max c)%nat -> (length D <= length E)%nat -> in_range D E ->
  exists s v a x, (forall oc da, gravity_run c oc da D E = Ok [s; v; a]) /\
    x 0%nat 0%nat == 0 /\ x 0%nat 1%nat == 0 /\ x 0%nat 2%nat == 6 /\
    q_follows 16 3 1 Ag Hg (fun t => qcell 16 1 (gainC t)) (length D) x (fun t _ => fval 16 (nth t D 0%Z + nth t E 0%Z)) /\
    x (length D) 0%nat == fval 16 s /\ x (length D) 1%nat == fval 16 v /\ x (length D) 2%nat == fval 16 a /\
    (forall t, (t <= length D)%nat -> Qabs (x t 0%nat) <= 7400 /\ Qabs (x t 1%nat) <= 5500 /\ Qabs (x t 2%nat) <= 3000).
Proof.
  intros Hc LE HR.
  assert (HZ : Forall (reading_ok 16 1 (fun j => nth j ZlC 0)) (rds D E)).
  { apply Forall_forall. intros z Hz. unfold rds in Hz. apply in_map_iff in Hz. destruct Hz as (t & <- & Ht). apply in_seq in Ht. split; [reflexivity|].
    intros j Hj. assert (j = 0%nat) as -> by lia. apply (HR t). lia. }
  destruct (cert_run 32 16 3 1 kf_g ob_g 42 40 pathC gEC KinfC HPC HEC ZlC BlC HRC 17%positive 16777216%positive tlC teC HTC HTeC x0C ClC 1048576%positive x0_ok ltac:(lia) HSC c [] [] (rds D E) ltac:(lia) ltac:(lia) ltac:(lia) Hc (kf_g_valid c Hc) (ob_g_valid c Hc) HZ)
    as (w' & x & R & X0 & XF & XE).
  rewrite rds_len in XF, XE.
  assert (HL : forall oc da t, (t < length (rds D E))%nat -> exists d e, nth_error D (0 + t) = Some d /\ nth_error E (0 + t) = Some e /\ n_add (i16f16_num oc da) d e = Ok (hd 0%Z (nth t (rds D E) [])) /\ length (nth t (rds D E) []) = 1%nat).
  { intros oc da t Ht. rewrite rds_len in Ht. exists (nth t D 0%Z), (nth t E 0%Z). split; [apply nth_error_nth'; lia|]. split; [apply nth_error_nth'; lia|]. rewrite rds_nth by lia. split; [|reflexivity].
    cbn [hd]. unfold n_add, i16f16_num, fx_num. cbn [o_add]. unfold fx_res. specialize (HR t Ht). unfold reading in HR. set (u := (nth t D 0%Z + nth t E 0%Z)%Z) in *.
    assert (F : fx_fits 32 u = true).
    { unfold fx_fits, fx_min, fx_max. apply Qabs_le_iff in HR. destruct HR as (H1 & H2). unfold fval in H1, H2. change (inject_Z (2 ^ 16)) with (65536 # 1) in H1, H2.
      unfold Qle, Qdiv, Qmult, Qinv, inject_Z in H1, H2. cbn in H1, H2. apply andb_true_intro. split; apply Z.leb_le; lia. }
    rewrite F. reflexivity. }
  assert (GR : forall oc da, gravity_run c oc da D E = Ok (kf_x (w_kf w')) /\ length (kf_x (w_kf w')) = 3%nat).
  { intros oc da. destruct (loop_run c oc da D E (rds D E) 0 kf_g ob_g w' (HL oc da) eq_refl (ob_g_valid c Hc) (kf_g_valid c Hc) (R oc da)) as (o' & L1 & L2).
    split; [|rewrite L2; reflexivity]. unfold gravity_run. rewrite (setup_ok c oc da Hc). cbn [bind]. unfold for_range. rewrite Nat.sub_0_r, <- (rds_len D E), L1. reflexivity. }
  pose proof (proj2 (GR true true)) as L3. destruct (kf_x (w_kf w')) as [|s [|v [|a [|? ?]]]] eqn:EX; try discriminate L3.
  exists s, v, a, x. split; [intros oc da; apply GR|].
  split; [rewrite (X0 0%nat) by lia; reflexivity|]. split; [rewrite (X0 1%nat) by lia; reflexivity|]. split; [rewrite (X0 2%nat) by lia; reflexivity|].
  assert (XF' : q_follows 16 3 1 Ag Hg (fun t => qcell 16 1 (gainC t)) (length D) x (fun t _ => fval 16 (nth t D 0%Z + nth t E 0%Z))).
  { intros t i Ht Hi. eapply Qle_trans; [|apply (XF t i Ht Hi)]. apply Qle_lteq. right. apply Qabs_wd. apply Qplus_comp; [reflexivity|]. apply Qopp_comp. unfold q_turn_state. apply Qplus_comp; [reflexivity|].
    apply qsum_eq. intros j Hj. assert (j = 0%nat) as -> by lia. rewrite rds_nth by lia. reflexivity. }
  split; [exact XF'|]. split; [apply (XE 0%nat); lia|]. split; [apply (XE 1%nat); lia|]. split; [apply (XE 2%nat); lia|].
  intros t Ht. assert (B : forall i, (i < 3)%nat -> Qabs (x t i) <= nth i BlC 0).
  { intros i Hi. apply (cert_stays 32 16 3 1 kf_g ob_g 42 40 pathC gEC KinfC HPC ZlC BlC 17%positive 16777216%positive tlC teC HTC HTeC x0C ClC 1048576%positive x0_ok ltac:(lia) HSC (length D) x (fun t _ => fval 16 (nth t D 0%Z + nth t E 0%Z)) X0); auto.
    intros s0 j Hs Hj. assert (j = 0%nat) as -> by lia. apply (HR s0 Hs). }
  split; [apply (B 0%nat); lia|]. split; [apply (B 1%nat); lia|apply (B 2%nat); lia].
Qed.
