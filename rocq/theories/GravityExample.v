(** * examples/gravity.rs for all sequences of small noise *)
From Coq Require Import ZArith QArith Qabs Qround Qreals Reals Lra Lqa Psatz Lia List.
From Flocq Require Import Core BinarySingleNaN.
From Verif Require Import Prelude Spec SpecBits Matrix Filter SpecFilter Wp Kernels FilterTwo History HistGen HistTwo SpecGen FloatNum SpecFloats SpecReal SpecRange SpecStable SpecTurn FloatGen FloatFlocq FloatOps FloatErr FloatPredict FloatFmt FloatUpdate FloatRange FloatTurn FloatSelect BitsProof BuildSim FloatWit TurnProof TurnRun SpecFixedRange SpecFixedGain FixedRange FixedStable FixedGain FixedCert LinPath ZPath FloatQ FloatUp FloatCert FloatTrack GravityFloat GravityLoop SpecStore StoreProof StoreExamples StaticProof RealExamples SpecGravityFloat GravityTest GravityTables GravityTables2 GravityFloatMain GravityCtl.
Import ListNotations SpecFloat.

(** ** setup *)
Lemma example_setup_ok c sz : (255 <= usize_max c)%nat -> example_setup c 24 128 sz = Ok (kf_32, ct_ex32, ob_32).
Proof.
  intros Hc. unfold example_setup. set (d := literal 24 128 0 1).
  destruct (build_filter_ok c d 3 (small_alloc c (3 * 3) Hc ltac:(cbn; Lia.lia))) as (f & Ef & Ff).
  destruct (build_control_ok c d 3 1 (small_alloc c (3 * 1) Hc ltac:(cbn; Lia.lia)) (small_alloc c (1 * 1) Hc ltac:(cbn; Lia.lia))) as (k & Ek & Fk).
  destruct (build_observation_ok c d 3 1 (small_alloc c (3 * 3) Hc ltac:(cbn; Lia.lia)) (small_alloc c (3 * 1) Hc ltac:(cbn; Lia.lia)) (small_alloc c (1 * 1) Hc ltac:(cbn; Lia.lia))) as (o & Eo & Fo).
  rewrite Ef, Ek, Eo. cbn [bind].
  destruct f as [fA fx fP fQ fp ft], k as [kB ku kQ kBQ], o as [oH oz oR oy oS oK oI oP oT oV]. cbn in Ff, Fk, Fo.
  destruct Ff as (-> & -> & -> & -> & -> & ->); destruct Fk as (-> & -> & -> & ->); destruct Fo as (-> & -> & -> & -> & -> & -> & -> & -> & -> & ->).
  cbn [kf_A kf_x kf_P kf_Q kf_px kf_tP ct_B ct_u ct_Q ct_BQ ob_H ob_z ob_R ob_y ob_S ob_K ob_Sinv ob_HP ob_PHt ob_KHP].
  eapply sim_ok.
  - instantiate (1 := x <- init_state_vector 24 128 (repeat d 3) ;; a <- init_state_transition tiny 24 128 sz (repeat d 9) ;; p <- init_state_covariance tiny 24 128 (repeat d 9) ;;
      u <- init_control_vector 24 128 (repeat d 1) ;; b <- init_control_matrix 24 128 (repeat d 3) ;; q <- init_control_covariance 24 128 (repeat d 1) ;;
      h <- init_measurement_matrix tiny 24 128 (repeat d 3) ;; r <- init_measurement_noise tiny 24 128 (repeat d 1) ;;
      Ok (mk_kalman a x p (repeat d 9) (repeat d 3) (repeat d 9), mk_ctl b u q (repeat d 3), mk_obs h (repeat d 1) r (repeat d 1) (repeat d 1) (repeat d 3) (repeat d 1) (repeat d 3) (repeat d 3) (repeat d 9))).
    pose proof (tiny_stricter c Hc) as H. unfold init_state_vector, init_state_transition, init_state_covariance, init_measurement_matrix, init_measurement_noise.
    cbv zeta. repeat first [apply sim_refl | apply sim_set_at; exact H | apply sim_bind; [|intros]].
  - destruct sz; vm_compute; reflexivity.
Qed.
Lemma values_ok sz : generate_values 24 128 sz 100 = Ok vals_32.
Proof. destruct sz; vm_compute; reflexivity. Qed.

(** ** the certificates *)
Open Scope Q_scope.
Notation s0 := (fun _ : nat => 0%nat).
Lemma certex_bounds : bounds_ok 24 128 3 1 s0 (kf_A kf_32) 40 65536 1 Wb_ex B_ex Az_32 Yz_ex = true. Proof. vm_compute. reflexivity. Qed.
Lemma certex_track : all_lt 100 (track_ok 128 3 1 s0 (kf_A kf_32) (ob_H ob_32) (fun t => nth t Kl_ex []) 40 30 1073741824 65536 1 fall_e (fun t => nth t tl_ex te_0) Wb_ex B_ex Az_32 Yz_ex (fun t => nth t bl_ex ([], [], []))) = true. Proof. vm_compute. reflexivity. Qed.
Lemma certex_box : box_ok_ 3 1 100 30 1073741824 1073741824 (fun t => nth t tl_ex te_0) Wb_ex B_ex x0_ex = true. Proof. vm_compute. reflexivity. Qed.
Lemma certex_read : all_lt 100 (fun t => read_ok 24 128 (nth t vals_32 (S754_zero false)) (8 # 100) (fall_e (S t) 0%nat) (Wb_ex 0%nat)) = true. Proof. vm_compute. reflexivity. Qed.
Lemma pathex sz : iter_path (turn_ex sz) 100 (with_x0 kf_32 3) = Some (path_of (if sz then res_ex else res_ex'), end_of (if sz then res_ex else res_ex')).
Proof. destruct sz; vm_compute; reflexivity. Qed.
Definition end_ok : bool :=
  let c := zchain 3 1 30 1073741824 (back (fun t => nth t tl_ex te_0) 100 100) 2 in let a := qsum 3 (fun l => iz (fst (fst c)) l * x0_ex l) in let r := zrest 3 1 30 1073741824 B_ex Wb_ex (back (fun t => nth t tl_ex te_0) 100 100) c in
  qlt_bool (1073741824 * (9 - (981 # 100))) (a - r) && qlt_bool (a + r) (1073741824 * (10 - (981 # 100))).
Lemma certex_end : end_ok = true. Proof. vm_compute. reflexivity. Qed.
Lemma end_ok_spec g : (let k := zchain 3 1 30 1073741824 (back (fun t => nth t tl_ex te_0) 100 100) 2 in
    Qabs (inject_Z 1073741824 * (g - fall_e 100 2) - qsum 3 (fun l => iz (fst (fst k)) l * x0_ex l)) <= zrest 3 1 30 1073741824 B_ex Wb_ex (back (fun t => nth t tl_ex te_0) 100 100) k) -> 9 < g /\ g < 10.
Proof.
  intros H. pose proof certex_end as G. unfold end_ok in G. cbv zeta in G, H. set (k := zchain 3 1 30 1073741824 (back (fun t => nth t tl_ex te_0) 100 100) 2) in *. set (a := qsum 3 (fun l => iz (fst (fst k)) l * x0_ex l)) in *.
  set (r := zrest 3 1 30 1073741824 B_ex Wb_ex (back (fun t => nth t tl_ex te_0) 100 100) k) in *.
  apply andb_prop in G. destruct G as (G1 & G2). apply qlt_bool_lt in G1, G2. apply Qabs_le_iff in H. change (fall_e 100 2) with (981 # 100) in H. clearbody a r k.
  change (inject_Z 1073741824) with (1073741824 # 1) in H. change 1073741824 with (1073741824 # 1) in G1, G2. split; Lqa.lra.
Qed.
Lemma ct_ex32_ok c : (255 <= usize_max c)%nat -> ct_inv c 24 128 3 ct_ex32 ct_ex32.
Proof.
  intros Hc. assert (V : ct_valid c 3 1 ct_ex32) by (red; vt Hc). split; [|split; [|split]].
  - split; [exact V|]. split; [exact V|]. split; intros p Hp; reflexivity.
  - unfold ct_all_format, ct_format. cbn. repeat split; repeat constructor.
  - exists false. reflexivity.
  - apply fin_list_matrix; reflexivity.
Qed.
Lemma sim_pr_ex sz c1 c2 f : stricter c1 c2 -> sim (pr_ex sz c1 f) (pr_ex sz c2 f).
Proof. intros H. unfold pr_ex. apply sim_bind; [apply sim_predict, H|]. intros g. apply sim_bind; [apply sim_control, H|]. intros r. apply sim_refl. Qed.

Theorem gravity_example_passes c sz noise : (255 <= usize_max c)%nat -> errors_within 24 128 100 (Q2R (8 # 100)) noise -> example_main c 24 128 sz noise = Ok tt.
Proof.
  intros Hc HE. destruct (errors_nth _ _ _ _ _ HE) as (LE & FE & WE). destruct (kf_32_ok c Hc) as (Vf & Vo & Ff & Fo). assert (HF : format_ok 24 128) by (split; reflexivity).
  assert (FV : all_in_format 24 128 vals_32) by (unfold vals_32; repeat constructor).
  assert (LV : length vals_32 = 100%nat) by reflexivity.
  destruct (ref_run c 24 128 sz Hc (pr_ex sz) (fun f r => sim_ok _ _ r (sim_pr_ex sz tiny c f (tiny_stricter c Hc))) kf_32 ob_32 100 _ _ Kl_ex (pathex sz) ltac:(destruct sz; vm_compute; reflexivity) ltac:(vm_compute; reflexivity)) as (G0 & HG).
  assert (I0 : kf_inv c 24 128 3 kf_32 (fst (nth 0 (path_of (if sz then res_ex else res_ex')) (end_of (if sz then res_ex else res_ex'), []))) kf_32).
  { rewrite G0. split; [apply with_x0_cov, Vf|]. split; [exact Ff|]. split; reflexivity. }
  assert (O0 : ob_inv c 24 128 3 ob_32 ob_32) by (split; [exact Vo|split; [exact Fo|split; [reflexivity|split; reflexivity]]]).
  destruct (ctl_loop c 24 128 sz HF 3 ltac:(Lia.lia) s0 kf_32 ct_ex32 ob_32 Vo ltac:(apply fin_list_matrix; reflexivity) ltac:(apply fin_list_matrix; reflexivity) (sel_r 3 1 s0 (ob_H ob_32) eq_refl) 100
    (fun t => fst (nth t (path_of (if sz then res_ex else res_ex')) (end_of (if sz then res_ex else res_ex'), []))) (fun t => nth t Kl_ex [])) with (D := vals_32) (E := noise) as (xs & fo & L1 & X0 & XT & L2 & L3 & XS).
  - intros t Ht. destruct (HG t Ht) as (g2 & o' & P1 & P2 & P3 & P4). unfold pr_ex in P1. destruct (predict c (sf_num 24 128 sz) 3 _) as [g1|e] eqn:E1; [|discriminate P1]. cbn [bind] in P1.
    destruct (control_ c (sf_num 24 128 sz) 3 1 ct_ex32 g1) as [(k' & g2')|e] eqn:E2; [|discriminate P1]. cbn [bind snd] in P1. injection P1 as ->. exists g1, k', g2, o'. tauto.
  - exact I0.
  - apply ct_ex32_ok, Hc.
  - exact O0.
  - rewrite LV. apply le_n.
  - rewrite LE. apply le_n.
  - exact FV.
  - exact FE.
  - destruct (cert_end 24 128 HF kf_32 ob_32 eq_refl 100 Kl_ex eq_refl 40 30 1073741824 1073741824 65536 1 fall_e tl_ex te_0 Wb_ex B_ex x0_ex Az_32 Yz_ex bl_ex eq_refl certex_bounds certex_track
      ltac:(intros [|[|[|i]]] Hi; [vm_compute; reflexivity|vm_compute; reflexivity|vm_compute; reflexivity|Lia.lia]) ltac:(vm_compute; reflexivity) certex_box vals_32 noise (8 # 100) ltac:(rewrite LV; apply le_n) ltac:(rewrite LE; apply le_n) FV FE certex_read WE xs X0 XS) as (L4 & L5).
    rewrite XT in L2, L3, L4, L5.
    unfold example_main, example_run. rewrite (example_setup_ok c sz Hc), (values_ok sz). cbn [bind]. rewrite LV, LE. change (Nat.min 100 100) with 100%nat. unfold for_range. change (100 - 0)%nat with 100%nat.
    change (example_turn c 24 128 sz vals_32 noise) with (ctl_body c 24 128 sz 3 vals_32 noise). rewrite L1. cbn [bind]. destruct fo as ((f & k) & o). cbn [fst bind] in *.
    destruct (end_ok_spec _ (L5 2%nat ltac:(Lia.lia))) as (G1 & G2).
    assert (GA : get_at c 1 (kf_x f) 0 2 = index_get (kf_x f) 2).
    { eapply eq_trans; [|reflexivity]. destruct (kf_x f) as [|y0 [|y1 [|y2 [|]]]]; try discriminate L2. change (index_get [y0; y1; y2] 2) with (Ok y2). eapply sim_ok; [apply sim_get_at, (tiny_stricter c Hc)|]. reflexivity. }
    rewrite GA. apply (g_check 24 128 _ 9 10 HF L2 L3 L4); try reflexivity; assumption.
Qed.

(** ** noise for which the assertion fails *)
Definition bad_ex : list spec_float := Eval vm_compute in repeat (from_int 24 128 0) 85 ++ signs (literal 24 128 13 100) (literal 24 128 (-13) 100) [false; false; true; true; true; false; false; false; true; true; true; true; false; false; true].
Definition bad_x : list spec_float := Eval vm_compute in match example_run tiny 24 128 true 100 bad_ex with Ok x => x | Panic _ => [] end.
Definition ex_loop (c : cfg) (sz : bool) (noise : list spec_float) := for_range 0 (Nat.min (length vals_32) (length noise)) (kf_32, ct_ex32, ob_32) (example_turn c 24 128 sz vals_32 noise).
Lemma sim_ex_loop c1 c2 sz noise : stricter c1 c2 -> sim (ex_loop c1 sz noise) (ex_loop c2 sz noise).
Proof.
  intros H. unfold ex_loop. apply sim_for_range. intros t ((f & k) & o). unfold example_turn. apply sim_bind; [apply sim_predict, H|]. intros f1. apply sim_bind; [apply sim_control, H|]. intros (k1 & f2).
  repeat first [apply sim_refl | apply sim_correct; exact H | apply sim_bind; [|intros]].
Qed.
Lemma bad_ex_run sz : exists r, ex_loop tiny sz bad_ex = Ok r /\ kf_x (fst (fst r)) = bad_x.
Proof. destruct sz; eexists; (split; [vm_compute; reflexivity|reflexivity]). Qed.
Theorem gravity_example_fails c sz : (255 <= usize_max c)%nat -> errors_within 24 128 100 (Q2R (131 # 1000)) bad_ex /\ example_main c 24 128 sz bad_ex = Panic AssertFailed.
Proof.
  intros Hc. split; [errs|]. unfold example_main, example_run. rewrite (example_setup_ok c sz Hc), (values_ok sz). cbn [bind]. destruct (bad_ex_run sz) as (((f & k) & o) & E1 & E2).
  fold (ex_loop c sz bad_ex). rewrite (sim_ok _ _ _ (sim_ex_loop tiny c sz bad_ex (tiny_stricter c Hc)) E1). cbn [bind fst] in *. rewrite E2.
  assert (GA : get_at c 1 bad_x 0 2 = get_at tiny 1 bad_x 0 2).
  { eapply sim_ok; [apply sim_get_at, (tiny_stricter c Hc)|]. reflexivity. }
  rewrite GA. vm_compute. reflexivity.
Qed.
(** noise within the bound: the largest allowed, with alternating signs *)
Definition good_ex : list spec_float := Eval vm_compute in signs (literal 24 128 79 1000) (literal 24 128 (-79) 1000) (flat_map (fun _ => [true; false; false; true; true]) (seq 0 20)).
Lemma good_ex_ok : errors_within 24 128 100 (Q2R (8 # 100)) good_ex.
Proof. errs. Qed.
