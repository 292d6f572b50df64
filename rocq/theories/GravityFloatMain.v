(** * tests/gravity.rs and tests/gravity_q_tuned.rs for all tables of errors *)
From Coq Require Import ZArith QArith Qabs Qround Qreals Reals Lra Lqa Psatz Lia List.
From Flocq Require Import Core BinarySingleNaN.
From Verif Require Import Prelude Spec SpecBits Matrix Filter SpecFilter Wp Kernels FilterTwo History HistGen HistTwo SpecGen FloatNum SpecFloats SpecReal SpecRange SpecStable SpecTurn FloatGen FloatFlocq FloatOps FloatErr FloatPredict FloatFmt FloatUpdate FloatRange FloatTurn FloatSelect BitsProof BuildSim FloatWit TurnProof TurnRun SpecFixedRange SpecFixedGain FixedRange FixedStable FixedGain FixedCert LinPath ZPath FloatQ FloatUp FloatCert FloatTrack GravityFloat GravityLoop SpecStore StoreProof StoreExamples StaticProof RealExamples SpecGravityFloat GravityTest GravityTables.
Import ListNotations SpecFloat.

(** ** setup *)
Lemma sim_test_init prec emax sz c1 c2 : stricter c1 c2 -> forall f o,
  sim (x <- init_state_vector prec emax (kf_x f) ;; a <- init_state_transition c1 prec emax sz (kf_A f) ;; p <- init_state_covariance c1 prec emax (kf_P f) ;;
       h <- init_measurement_matrix c1 prec emax (ob_H o) ;; r <- init_measurement_noise c1 prec emax (ob_R o) ;;
       Ok (mk_kalman a x p (kf_Q f) (kf_px f) (kf_tP f), mk_obs h (ob_z o) r (ob_y o) (ob_S o) (ob_K o) (ob_Sinv o) (ob_HP o) (ob_PHt o) (ob_KHP o)))
      (x <- init_state_vector prec emax (kf_x f) ;; a <- init_state_transition c2 prec emax sz (kf_A f) ;; p <- init_state_covariance c2 prec emax (kf_P f) ;;
       h <- init_measurement_matrix c2 prec emax (ob_H o) ;; r <- init_measurement_noise c2 prec emax (ob_R o) ;;
       Ok (mk_kalman a x p (kf_Q f) (kf_px f) (kf_tP f), mk_obs h (ob_z o) r (ob_y o) (ob_S o) (ob_K o) (ob_Sinv o) (ob_HP o) (ob_PHt o) (ob_KHP o))).
Proof.
  intros H f o. unfold init_state_vector, init_state_transition, init_state_covariance, init_measurement_matrix, init_measurement_noise.
  cbv zeta. repeat first [apply sim_refl | apply sim_set_at; exact H | apply sim_bind; [|intros]].
Qed.
Ltac setup_tac Hc sz d :=
  unfold test_setup;
  destruct (static_filter_full _ d 3 (small_alloc _ (3 * 3) Hc ltac:(cbn; Lia.lia))) as (f & Ef & _ & Ff & _);
  destruct (static_observation_full _ d 3 1 (small_alloc _ (3 * 3) Hc ltac:(cbn; Lia.lia)) (small_alloc _ (3 * 1) Hc ltac:(cbn; Lia.lia)) (small_alloc _ (1 * 1) Hc ltac:(cbn; Lia.lia))) as (o & Eo & _ & Fo & _);
  rewrite Ef, Eo; cbn [bind]; eapply sim_ok; [apply sim_test_init, tiny_stricter, Hc|];
  destruct f as [fA fx fP fQ fp ft], o as [oH oz oR oy oS oK oI oP oT oV]; cbn in Ff, Fo;
  destruct Ff as (-> & -> & -> & -> & -> & ->); destruct Fo as (-> & -> & -> & -> & -> & -> & -> & -> & -> & ->);
  destruct sz; vm_compute; reflexivity.
Lemma setup_32 c sz : (255 <= usize_max c)%nat -> test_setup c 24 128 sz = Ok (kf_32, ob_32).
Proof. intros Hc. setup_tac Hc sz (literal 24 128 0 1). Qed.
Lemma setup_64 c sz : (255 <= usize_max c)%nat -> test_setup c 53 1024 sz = Ok (kf_64, ob_64).
Proof. intros Hc. setup_tac Hc sz (literal 53 1024 0 1). Qed.

(** ** the certificates *)
Section Show.
Open Scope Q_scope.
Notation s0 := (fun _ : nat => 0%nat).
Lemma cert32_bounds : bounds_ok 24 128 3 1 s0 (kf_A kf_32) 40 65536 1 Wb_32 B_32 Az_32 Yz_32 = true. Proof. vm_compute. reflexivity. Qed.
Lemma cert32_track : all_lt 15 (track_ok 128 3 1 s0 (kf_A kf_32) (ob_H ob_32) (fun t => nth t Kl_32 []) 40 30 1073741824 65536 1 fall_q (fun t => nth t tl_32 te_0) Wb_32 B_32 Az_32 Yz_32 (fun t => nth t bl_32 ([], [], []))) = true. Proof. vm_compute. reflexivity. Qed.
Lemma cert32_box : box_ok_ 3 1 15 30 1073741824 1073741824 (fun t => nth t tl_32 te_0) Wb_32 B_32 x0_0 = true. Proof. vm_compute. reflexivity. Qed.
Lemma cert64_bounds : bounds_ok 53 1024 3 1 s0 (kf_A kf_64) 40 1 1 Wb_64 B_64 Az_64 Yz_64 = true. Proof. vm_compute. reflexivity. Qed.
Lemma cert64_track : all_lt 15 (track_ok 1024 3 1 s0 (kf_A kf_64) (ob_H ob_64) (fun t => nth t Kl_64 []) 40 30 1073741824 1 1 fall_q (fun t => nth t tl_64 te_0) Wb_64 B_64 Az_64 Yz_64 (fun t => nth t bl_64 ([], [], []))) = true. Proof. vm_compute. reflexivity. Qed.
Lemma cert64_box : box_ok_ 3 1 15 30 1073741824 1073741824 (fun t => nth t tl_64 te_0) Wb_64 B_64 x0_0 = true. Proof. vm_compute. reflexivity. Qed.
Definition path_of {X Y} (p : option (list X * Y)) : list X := match p with Some (l, _) => l | None => [] end.
Definition end_of {X} (p : option (list X * kalman spec_float)) : kalman spec_float := match p with Some (_, e) => e | None => kf_32 end.
Lemma path32 sz : iter_path (turn_32 sz) 15 (with_x0 kf_32 3) = Some (path_of (if sz then res_32 else res_32'), end_of (if sz then res_32 else res_32')).
Proof. destruct sz; vm_compute; reflexivity. Qed.
Lemma path64 sz : iter_path (turn_64 sz) 15 (with_x0 kf_64 3) = Some (path_of (if sz then res_64 else res_64'), end_of (if sz then res_64 else res_64')).
Proof. destruct sz; vm_compute; reflexivity. Qed.
End Show.
Ltac fmt := unfold kf_all_format, ob_format; cbn; repeat split; repeat constructor.
Lemma kf_32_ok c : (255 <= usize_max c)%nat -> kf_valid c 3 kf_32 /\ ob_valid c 3 1 ob_32 /\ kf_all_format 24 128 kf_32 /\ ob_format 24 128 ob_32.
Proof. intros Hc. split; [red; vt Hc|]. split; [red; vt Hc|]. split; fmt. Qed.
Lemma kf_64_ok c : (255 <= usize_max c)%nat -> kf_valid c 3 kf_64 /\ ob_valid c 3 1 ob_64 /\ kf_all_format 53 1024 kf_64 /\ ob_format 53 1024 ob_64.
Proof. intros Hc. split; [red; vt Hc|]. split; [red; vt Hc|]. split; fmt. Qed.

Lemma errors_nth prec emax T w l : errors_within prec emax T (Q2R w) l -> length l = T /\ all_in_format prec emax l /\
  forall t, (t < T)%nat -> sf_finite (nth t l (S754_zero false)) = true /\ (Qabs (fq (nth t l (S754_zero false))) <= w)%Q.
Proof.
  intros (L & F & W). split; [exact L|]. split; [exact F|]. intros t Ht. rewrite Forall_forall in W. destruct (W (nth t l (S754_zero false))) as (W1 & W2); [apply nth_In; Lia.lia|].
  split; [exact W1|]. apply Rle_Qle. rewrite Q2R_abs, Q2R_fq. exact W2.
Qed.
Lemma test_body_eq c prec emax sz pr D E t st : test_turn c prec emax sz pr D E t st = test_body c prec emax sz 3 pr D E t st.
Proof. reflexivity. Qed.
Lemma g_check prec emax x (lo hi : Q) : format_ok prec emax -> length x = 3%nat -> all_in_format prec emax x -> fin_matrix 3 1 x -> in_format prec emax (from_int prec emax 9) -> in_format prec emax (from_int prec emax 10) ->
  sf_finite (from_int prec emax 9) = true -> sf_finite (from_int prec emax 10) = true -> fq (from_int prec emax 9) == 9 -> fq (from_int prec emax 10) == 10 ->
  (9 < qcl 1 x 2 0)%Q -> (qcl 1 x 2 0 < 10)%Q -> (g <- index_get x 2 ;; assert_g prec emax g) = Ok tt.
Proof.
  intros HF L F I V9 V10 F9 F10 E9 E10 H1 H2. destruct x as [|x0 [|x1 [|g [|]]]]; try discriminate L.
  cbn [index_get]. change (index_get [x0; x1; g] 2) with (Ok g). cbn [bind].
  destruct (I 2%nat 0%nat ltac:(Lia.lia) ltac:(Lia.lia)) as (v & EV & FV). cbn in EV. injection EV as <-.
  assert (VG : in_format prec emax g). { unfold all_in_format in F. rewrite Forall_forall in F. apply F. cbn. tauto. }
  change (qcl 1 [x0; x1; g] 2 0) with (fq g) in *. apply Qlt_Rlt in H1, H2. rewrite Q2R_fq in H1, H2.
  apply Qeq_eqR in E9, E10. rewrite Q2R_fq in E9, E10. rewrite <- E9 in H1. rewrite <- E10 in H2.
  unfold assert_g. rewrite (proj2 (ltb_val prec emax _ _ HF V9 VG F9 FV)) by exact H1. rewrite (proj2 (ltb_val prec emax _ _ HF VG V10 FV F10)) by exact H2. reflexivity.
Qed.
Open Scope Q_scope.
Definition g_ok (P : positive) (tab : nat -> ztab) (Wb B : nat -> Q) : bool :=
  let c := zchain 3 1 30 P (back tab 15 15) 2 in let a := qsum 3 (fun l => iz (fst (fst c)) l * x0_0 l) in let r := zrest 3 1 30 1073741824 B Wb (back tab 15 15) c in
  qlt_bool (inject_Z (Zpos P) * (9 - (981 # 100))) (a - r) && qlt_bool (a + r) (inject_Z (Zpos P) * (10 - (981 # 100))).
Lemma qlt_bool_lt a b : qlt_bool a b = true -> a < b.
Proof. intros H. unfold qlt_bool in H. apply Qnot_le_lt. intros L. apply Qle_bool_iff in L. rewrite L in H. discriminate. Qed.
Lemma g_ok_spec P tab Wb B g : g_ok P tab Wb B = true -> (let k := zchain 3 1 30 P (back tab 15 15) 2 in
    Qabs (inject_Z (Zpos P) * (g - fall_q 15 2) - qsum 3 (fun l => iz (fst (fst k)) l * x0_0 l)) <= zrest 3 1 30 1073741824 B Wb (back tab 15 15) k) -> 9 < g /\ g < 10.
Proof.
  intros G H. unfold g_ok in G. cbv zeta in G, H. set (k := zchain 3 1 30 P (back tab 15 15) 2) in *. set (a := qsum 3 (fun l => iz (fst (fst k)) l * x0_0 l)) in *. set (r := zrest 3 1 30 1073741824 B Wb (back tab 15 15) k) in *.
  apply andb_prop in G. destruct G as (G1 & G2). apply qlt_bool_lt in G1, G2. apply Qabs_le_iff in H. change (fall_q 15 2) with (981 # 100) in H. clearbody a r k.
  assert (P0 : 0 < inject_Z (Zpos P)) by reflexivity. set (p := inject_Z (Zpos P)) in *. clearbody p. split.
  - apply Qnot_le_lt. intros L. assert (p * (9 - g) >= 0) by (apply Qmult_le_0_compat; lra). lra.
  - apply Qnot_le_lt. intros L. assert (p * (g - 10) >= 0) by (apply Qmult_le_0_compat; lra). lra.
Qed.
Lemma g32 : g_ok 1073741824 (fun t => nth t tl_32 te_0) Wb_32 B_32 = true. Proof. vm_compute. reflexivity. Qed.
Lemma g64 : g_ok 1073741824 (fun t => nth t tl_64 te_0) Wb_64 B_64 = true. Proof. vm_compute. reflexivity. Qed.

(** ** tests/gravity.rs *)
Theorem gravity_test_passes c sz E : (255 <= usize_max c)%nat -> errors_within 24 128 15 (Q2R (9 # 2)) E -> gravity_test c 24 128 sz E = Ok tt.
Proof.
  intros Hc HE. destruct (errors_nth _ _ _ _ _ HE) as (LE & FE & WE). destruct (kf_32_ok c Hc) as (Vf & Vo & Ff & Fo). assert (HF : format_ok 24 128) by (split; reflexivity).
  assert (TP := test_run_path c 24 128 sz Hc HF (fun c => predict c (sf_num 24 128 sz) 3) (fun f r => predict_tiny c Hc _ 3 f r) (fun f g g1 => predict_step c 24 128 sz HF 3 f g g1 ltac:(Lia.lia))
    kf_32 ob_32 Vf Vo Ff Fo eq_refl eq_refl 15 _ _ Kl_32 (path32 sz) ltac:(destruct sz; vm_compute; reflexivity) eq_refl eq_refl eq_refl (test_distance 24 128) E ltac:(cbn; Lia.lia) ltac:(rewrite LE; apply le_n) ltac:(unfold test_distance; repeat constructor) FE).
  destruct TP as (xs & fo & L1 & X0 & XT & L2 & L3 & XS).
  destruct (cert_end 24 128 HF kf_32 ob_32 eq_refl 15 Kl_32 eq_refl 40 30 1073741824 1073741824 65536 1 fall_q tl_32 te_0 Wb_32 B_32 x0_0 Az_32 Yz_32 bl_32 eq_refl cert32_bounds cert32_track
    ltac:(intros [|[|[|i]]] Hi; [vm_compute; reflexivity|vm_compute; reflexivity|vm_compute; reflexivity|Lia.lia]) eq_refl cert32_box (test_distance 24 128) E (9 # 2) ltac:(cbn; Lia.lia) ltac:(rewrite LE; apply le_n) ltac:(unfold test_distance; repeat constructor) FE ltac:(vm_compute; reflexivity) WE xs X0 XS) as (L4 & L5).
  rewrite XT in L2, L3, L4, L5.
  unfold gravity_test, test_run. rewrite (setup_32 c sz Hc). cbn [bind]. change (length (test_distance 24 128)) with 15%nat. unfold for_range. cbn [Nat.sub].
    change (test_turn c 24 128 sz (predict c (sf_num 24 128 sz) 3) (test_distance 24 128) E) with (test_body c 24 128 sz 3 (predict c (sf_num 24 128 sz) 3) (test_distance 24 128) E).
    rewrite L1. cbn [bind]. destruct (g_ok_spec _ _ _ _ _ g32 (L5 2%nat ltac:(Lia.lia))) as (G1 & G2).
    apply (g_check 24 128 _ 9 10 HF L2 L3 L4); try reflexivity; assumption.
Qed.

(** ** tests/gravity_q_tuned.rs *)
Theorem gravity_tuned_passes c sz E : (255 <= usize_max c)%nat -> errors_within 53 1024 15 (Q2R (15 # 100)) E -> gravity_tuned_test c 53 1024 sz E = Ok tt.
Proof.
  intros Hc HE. destruct (errors_nth _ _ _ _ _ HE) as (LE & FE & WE). destruct (kf_64_ok c Hc) as (Vf & Vo & Ff & Fo). assert (HF : format_ok 53 1024) by (split; reflexivity).
  assert (TP := test_run_path c 53 1024 sz Hc HF (fun c => predict_tuned c (sf_num 53 1024 sz) 3 (literal 53 1024 1 2)) (fun f r => sim_ok _ _ r (sim_predict_tuned _ _ _ (tiny_stricter c Hc) 3 _ f))
    (fun f g g1 => predict_tuned_step c 53 1024 sz HF 3 (literal 53 1024 1 2) f g g1 ltac:(Lia.lia) eq_refl)
    kf_64 ob_64 Vf Vo Ff Fo eq_refl eq_refl 15 _ _ Kl_64 (path64 sz) ltac:(destruct sz; vm_compute; reflexivity) eq_refl eq_refl eq_refl (test_distance 53 1024) E ltac:(cbn; Lia.lia) ltac:(rewrite LE; apply le_n) ltac:(unfold test_distance; repeat constructor) FE).
  destruct TP as (xs & fo & L1 & X0 & XT & L2 & L3 & XS).
  destruct (cert_end 53 1024 HF kf_64 ob_64 eq_refl 15 Kl_64 eq_refl 40 30 1073741824 1073741824 1 1 fall_q tl_64 te_0 Wb_64 B_64 x0_0 Az_64 Yz_64 bl_64 eq_refl cert64_bounds cert64_track
    ltac:(intros [|[|[|i]]] Hi; [vm_compute; reflexivity|vm_compute; reflexivity|vm_compute; reflexivity|Lia.lia]) eq_refl cert64_box (test_distance 53 1024) E (15 # 100) ltac:(cbn; Lia.lia) ltac:(rewrite LE; apply le_n) ltac:(unfold test_distance; repeat constructor) FE ltac:(vm_compute; reflexivity) WE xs X0 XS) as (L4 & L5).
  rewrite XT in L2, L3, L4, L5.
  unfold gravity_tuned_test, test_run. rewrite (setup_64 c sz Hc). cbn [bind]. change (length (test_distance 53 1024)) with 15%nat. unfold for_range. cbn [Nat.sub].
    change (test_turn c 53 1024 sz (predict_tuned c (sf_num 53 1024 sz) 3 (literal 53 1024 1 2)) (test_distance 53 1024) E) with (test_body c 53 1024 sz 3 (predict_tuned c (sf_num 53 1024 sz) 3 (literal 53 1024 1 2)) (test_distance 53 1024) E).
    rewrite L1. cbn [bind]. destruct (g_ok_spec _ _ _ _ _ g64 (L5 2%nat ltac:(Lia.lia))) as (G1 & G2).
    apply (g_check 53 1024 _ 9 10 HF L2 L3 L4); try reflexivity; assumption.
Qed.

(** ** tables of errors for which the assertions fail *)
Lemma sim_test_loop prec emax sz c1 c2 (pr1 pr2 : kalman spec_float -> res (kalman spec_float)) D E : stricter c1 c2 -> (forall f, sim (pr1 f) (pr2 f)) -> forall s,
  sim (for_range 0 (length D) s (test_turn c1 prec emax sz pr1 D E)) (for_range 0 (length D) s (test_turn c2 prec emax sz pr2 D E)).
Proof.
  intros H HP s. apply sim_for_range. intros t (f & o). unfold test_turn. repeat first [apply sim_refl | apply HP | apply sim_correct; exact H | apply sim_bind; [|intros]].
Qed.
Definition signs (up dn : spec_float) (l : list bool) : list spec_float := map (fun b : bool => if b then up else dn) l.
Definition bad_32 : list spec_float := Eval vm_compute in signs (from_int 24 128 5) (from_int 24 128 (-5)) [true; false; false; false; false; false; false; false; false; false; false; true; true; true; true].
Definition bad_64 : list spec_float := Eval vm_compute in signs (literal 53 1024 17 100) (literal 53 1024 (-17) 100) [true; true; true; true; true; true; true; true; true; true; true; true; false; false; true].
Definition final_32 (E : list spec_float) (sz : bool) := match for_range 0 15 (kf_32, ob_32) (test_turn tiny 24 128 sz (predict tiny (sf_num 24 128 sz) 3) (test_distance 24 128) E) with Ok r => r | Panic _ => (kf_32, ob_32) end.
Definition final_64 (E : list spec_float) (sz : bool) := match for_range 0 15 (kf_64, ob_64) (test_turn tiny 53 1024 sz (predict_tuned tiny (sf_num 53 1024 sz) 3 (literal 53 1024 1 2)) (test_distance 53 1024) E) with Ok r => r | Panic _ => (kf_64, ob_64) end.
Definition bad_end_32 : kalman spec_float * observation spec_float := Eval vm_compute in final_32 bad_32 true.
Definition bad_end_64 : kalman spec_float * observation spec_float := Eval vm_compute in final_64 bad_64 true.
Definition good_end_64 : kalman spec_float * observation spec_float := Eval vm_compute in final_64 (test_error 53 1024) true.
Lemma bad_run_32 sz : exists fo, for_range 0 15 (kf_32, ob_32) (test_turn tiny 24 128 sz (predict tiny (sf_num 24 128 sz) 3) (test_distance 24 128) bad_32) = Ok fo /\ kf_x (fst fo) = kf_x (fst bad_end_32).
Proof. destruct sz; eexists; (split; [vm_compute; reflexivity|reflexivity]). Qed.
Lemma bad_run_64 sz : exists fo, for_range 0 15 (kf_64, ob_64) (test_turn tiny 53 1024 sz (predict_tuned tiny (sf_num 53 1024 sz) 3 (literal 53 1024 1 2)) (test_distance 53 1024) bad_64) = Ok fo /\ kf_x (fst fo) = kf_x (fst bad_end_64).
Proof. destruct sz; eexists; (split; [vm_compute; reflexivity|reflexivity]). Qed.
Lemma good_run_64 sz : exists fo, for_range 0 15 (kf_64, ob_64) (test_turn tiny 53 1024 sz (predict_tuned tiny (sf_num 53 1024 sz) 3 (literal 53 1024 1 2)) (test_distance 53 1024) (test_error 53 1024)) = Ok fo /\ kf_x (fst fo) = kf_x (fst good_end_64).
Proof. destruct sz; eexists; (split; [vm_compute; reflexivity|reflexivity]). Qed.
Ltac errs := split; [reflexivity|split; [repeat constructor|]]; repeat (apply Forall_cons; [split; [reflexivity|rewrite <- Q2R_fq, <- Q2R_abs; apply Qle_Rle; apply Qle_bool_iff; vm_compute; reflexivity]|]); apply Forall_nil.
Theorem gravity_test_fails c sz : (255 <= usize_max c)%nat -> errors_within 24 128 15 (Q2R 5) bad_32 /\ gravity_test c 24 128 sz bad_32 = Panic AssertFailed.
Proof.
  intros Hc. split; [errs|]. unfold gravity_test, test_run. rewrite (setup_32 c sz Hc). cbn [bind]. destruct (bad_run_32 sz) as (fo & E1 & E2).
  rewrite (sim_ok _ _ _ (sim_test_loop 24 128 sz tiny c _ (predict c (sf_num 24 128 sz) 3) (test_distance 24 128) bad_32 (tiny_stricter c Hc) (fun f => sim_predict _ _ _ (tiny_stricter c Hc) 3 f) (kf_32, ob_32)) E1). cbn [bind]. rewrite E2. reflexivity.
Qed.
Theorem gravity_tuned_fails c sz : (255 <= usize_max c)%nat -> errors_within 53 1024 15 (Q2R (171 # 1000)) bad_64 /\ gravity_tuned_test c 53 1024 sz bad_64 = Panic AssertFailed.
Proof.
  intros Hc. split; [errs|]. unfold gravity_tuned_test, test_run. rewrite (setup_64 c sz Hc). cbn [bind]. destruct (bad_run_64 sz) as (fo & E1 & E2).
  rewrite (sim_ok _ _ _ (sim_test_loop 53 1024 sz tiny c _ (predict_tuned c (sf_num 53 1024 sz) 3 (literal 53 1024 1 2)) (test_distance 53 1024) bad_64 (tiny_stricter c Hc) (fun f => sim_predict_tuned _ _ _ (tiny_stricter c Hc) 3 _ f) (kf_64, ob_64)) E1). cbn [bind]. rewrite E2. reflexivity.
Qed.
(** the tables in the repository *)
Lemma shipped_32 : errors_within 24 128 15 (Q2R (9 # 2)) (test_error 24 128).
Proof. errs. Qed.
Theorem shipped_64 c sz : (255 <= usize_max c)%nat -> gravity_tuned_test c 53 1024 sz (test_error 53 1024) = Ok tt.
Proof.
  intros Hc. unfold gravity_tuned_test, test_run. rewrite (setup_64 c sz Hc). cbn [bind]. destruct (good_run_64 sz) as (fo & E1 & E2).
  rewrite (sim_ok _ _ _ (sim_test_loop 53 1024 sz tiny c _ (predict_tuned c (sf_num 53 1024 sz) 3 (literal 53 1024 1 2)) (test_distance 53 1024) (test_error 53 1024) (tiny_stricter c Hc) (fun f => sim_predict_tuned _ _ _ (tiny_stricter c Hc) 3 _ f) (kf_64, ob_64)) E1). cbn [bind]. rewrite E2. reflexivity.
Qed.
Definition errs_64 : list spec_float := Eval vm_compute in signs (literal 53 1024 1 10) (literal 53 1024 (-14) 100) [true; false; true; true; false; true; true; true; false; false; true; true; false; false; true].
Lemma errs_64_ok : errors_within 53 1024 15 (Q2R (15 # 100)) errs_64.
Proof. errs. Qed.
