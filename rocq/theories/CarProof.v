(** * examples/car_1d.rs for all readings near the table, by a run in affine arithmetic (Affine.v) *)
From Coq Require Import ZArith QArith Qabs Qreals Reals Lra Psatz Lia List.
From Flocq Require Import Core BinarySingleNaN.
From Verif Require Import Prelude Numeric Matrix Filter Builder Wp SpecStore StoreProof StoreExamples FilterTwo History FloatNum SpecFloats SpecReal SpecRange SpecParam Param SpecDataPar DataPar FloatGen FloatFlocq FloatOps FloatErr FloatQ FloatFmt FloatRange FloatSelect BuildSim FloatWit GravityLoop Car SpecCar Affine.
Import ListNotations SpecFloat.
Local Open Scope nat_scope.

(** ** the setup and the first ten predictions *)
Definition st3 : Type := (kalman spec_float * control spec_float * observation spec_float)%type.
Definition no_kf : kalman spec_float := mk_kalman [] [] [] [] [] [].
Definition no_st : st3 := (no_kf, mk_ctl [] [] [] [], mk_obs [] [] [] [] [] [] [] [] [] []).
Definition car_first : st3 := Eval vm_compute in match car_setup tiny true with Ok r => r | Panic _ => no_st end.
Definition car_fast : kalman spec_float := Eval vm_compute in match car_accelerate tiny true (fst (fst car_first)) with Ok r => r | Panic _ => no_kf end.
Definition car_k : control spec_float := Eval vm_compute in snd (fst car_first).
Definition car_o : observation spec_float := Eval vm_compute in snd car_first.

Definition car_fill (c : cfg) (sz : bool) (f : kalman spec_float) (k : control spec_float) (o : observation spec_float) : res st3 :=
  x <- car_state (kf_x f) ;; a <- car_transition c sz (kf_A f) ;; p <- make_identity c (f32_num sz) 3 (kf_P f) ;;
  b <- car_control_matrix c (ct_B k) ;; q <- make_identity c (f32_num sz) 1 (ct_Q k) ;;
  h <- set_at c 3 (ob_H o) 0 0 (from_int 24 128 1) ;; r <- car_measurement_noise c sz (ob_R o) ;;
  Ok (mk_kalman a x p (kf_Q f) (kf_px f) (kf_tP f), mk_ctl b (set_zero (f32_num sz) (ct_u k)) q (ct_BQ k),
      mk_obs h (ob_z o) r (ob_y o) (ob_S o) (ob_K o) (ob_Sinv o) (ob_HP o) (ob_PHt o) (ob_KHP o)).
Lemma sim_car_fill c1 c2 sz f k o : stricter c1 c2 -> sim (car_fill c1 sz f k o) (car_fill c2 sz f k o).
Proof.
  intros H. unfold car_fill, car_state, car_transition, car_control_matrix, car_measurement_noise, make_identity, make_scalar.
  repeat first [apply sim_refl | apply sim_set_at; exact H | apply sim_make_comatrix; exact H | apply sim_bind; [|intros]].
Qed.
Lemma car_setup_ok c sz : 255 <= usize_max c -> car_setup c sz = Ok car_first.
Proof.
  intros Hc. set (d := from_int 24 128 0).
  destruct (build_filter_ok c d 3 (small_alloc c (3 * 3) Hc ltac:(cbn; lia))) as (f & Ef & Ff).
  destruct (build_control_ok c d 3 1 (small_alloc c (3 * 1) Hc ltac:(cbn; lia)) (small_alloc c (1 * 1) Hc ltac:(cbn; lia))) as (k & Ek & Fk).
  destruct (build_observation_ok c d 3 1 (small_alloc c (3 * 3) Hc ltac:(cbn; lia)) (small_alloc c (3 * 1) Hc ltac:(cbn; lia)) (small_alloc c (1 * 1) Hc ltac:(cbn; lia))) as (o & Eo & Fo).
  assert (E : car_setup c sz = car_fill c sz f k o). { unfold car_setup. fold d. rewrite Ef, Ek, Eo. reflexivity. } rewrite E.
  eapply sim_ok; [apply sim_car_fill, tiny_stricter, Hc|].
  destruct f as [fA fx fP fQ fp ft], k as [kB ku kQ kBQ], o as [oH oz oR oy oS oK oI oP oT oV]. unfold kf_fresh in Ff. unfold ct_fresh in Fk. unfold ob_fresh in Fo. cbn in Ff, Fk, Fo.
  destruct Ff as (-> & -> & -> & -> & -> & ->); destruct Fk as (-> & -> & -> & ->); destruct Fo as (-> & -> & -> & -> & -> & -> & -> & -> & -> & ->).
  destruct sz; vm_compute; reflexivity.
Qed.
Lemma car_accelerate_ok c sz : 255 <= usize_max c -> car_accelerate c sz (fst (fst car_first)) = Ok car_fast.
Proof.
  intros Hc. eapply sim_ok; [apply sim_for_range; intros; apply sim_predict, tiny_stricter, Hc|]. destruct sz; vm_compute; reflexivity.
Qed.
Lemma car_before_ok : car_assert_before (kf_x car_fast) = Ok tt. Proof. reflexivity. Qed.

(** ** the loop with any element type *)
Section Loop.
Context {T : Type} (c : cfg) (N : num T).
Definition put_z_ (o : observation T) (z : list T) : observation T :=
  mk_obs (ob_H o) z (ob_R o) (ob_y o) (ob_S o) (ob_K o) (ob_Sinv o) (ob_HP o) (ob_PHt o) (ob_KHP o).
Definition gturn (acc : T) (obs : list T) (t : nat) (s : kalman T * control T * observation T) : res (kalman T * control T * observation T) :=
  let '(f, k, o) := s in
  u <- set_at c 1 (ct_u k) 0 0 acc ;;
  f <- predict c N 3 f ;;
  r <- control_ c N 3 1 (mk_ctl (ct_B k) u (ct_Q k) (ct_BQ k)) f ;;
  let '(k, f) := r in
  if Nat.eqb (Nat.modulo t 2) 0 then
    v <- rd obs (t - 10) ;; z <- index_set (ob_z o) 0 v ;;
    r <- correct c N 3 1 (put_z_ o z) f ;;
    let '(o, f) := r in Ok (f, k, o)
  else Ok (f, k, o).
End Loop.
Lemma car_turn_gturn c sz obs t s : car_turn c sz obs t s = gturn c (f32_num sz) car_acceleration obs t s.
Proof. reflexivity. Qed.
Lemma sim_gturn {T} (N : num T) c1 c2 acc obs t s : stricter c1 c2 -> sim (gturn c1 N acc obs t s) (gturn c2 N acc obs t s).
Proof.
  intros H. destruct s as ((f & k) & o). unfold gturn.
  apply sim_bind; [apply sim_set_at, H|]. intros u. apply sim_bind; [apply sim_predict, H|]. intros f'. apply sim_bind; [apply sim_control, H|]. intros (k' & f'').
  destruct (Nat.eqb _ _); [|apply sim_refl]. apply sim_bind; [apply sim_refl|]. intros v. apply sim_bind; [apply sim_refl|]. intros z. apply sim_bind; [apply sim_correct, H|]. intros (o' & f3). apply sim_refl.
Qed.

Section Rel.
Context {T1 T2 : Type} (esc : Prop) (R0 RD : T1 -> T2 -> Prop) (c : cfg) (N1 : num T1) (N2 : num T2).
Hypothesis HM : num_mixed esc R0 RD N1 N2.
Definition st_rel (s : kalman T1 * control T1 * observation T1) (t : kalman T2 * control T2 * observation T2) : Prop :=
  kf_mixed R0 RD (fst (fst s)) (fst (fst t)) /\ ct_mixed R0 RD (snd (fst s)) (snd (fst t)) /\ ob_mixed R0 RD (snd s) (snd t).
Lemma gturn_rel acc acc' obs obs' t s s' : RD acc acc' -> Forall2 RD obs obs' -> st_rel s s' -> @prel esc _ _ st_rel (gturn c N1 acc obs t s) (gturn c N2 acc' obs' t s').
Proof.
  intros Ha Ho. destruct s as ((f & k) & o), s' as ((f' & k') & o'). intros (Hf & Hk & Hob). cbn [fst snd] in Hf, Hk, Hob. unfold gturn.
  destruct Hk as (HB & Hu & HQ & HBQ). destruct Hob as (H1 & H2 & H3 & H4 & H5 & H6 & H7 & H8 & H9 & H10).
  eapply (prel_bind esc (Forall2 RD)). { unfold set_at. eapply (prel_bind esc eq); [apply prel_same; reflexivity|]. intros r ? <-. eapply (prel_bind esc eq); [apply prel_same; reflexivity|]. intros i ? <-. apply (prel_wr esc RD); [exact Hu|reflexivity|exact Ha]. } intros u u' Hu'.
  eapply (prel_bind esc (kf_mixed R0 RD)). { apply (m_predict esc R0 RD c N1 N2 HM). exact Hf. } intros g g' Hg.
  eapply (prel_bind esc (rel_prod (ct_mixed R0 RD) (kf_mixed R0 RD))). { apply (m_control esc R0 RD c N1 N2 HM); [repeat split; assumption|exact Hg]. }
  intros (k1 & g1) (k1' & g1') (Hk1 & Hg1). cbn [fst snd] in Hk1, Hg1.
  destruct (Nat.eqb _ _).
  - eapply (prel_bind esc RD). { apply (prel_rd esc RD); [exact Ho|reflexivity]. } intros v v' Hv.
    eapply (prel_bind esc (Forall2 RD)). { apply (prel_wr esc RD); [exact H2|reflexivity|exact Hv]. } intros z z' Hz.
    eapply (prel_bind esc (rel_prod (ob_mixed R0 RD) (kf_mixed R0 RD))). { apply (m_correct esc R0 RD c N1 N2 HM); [repeat split; assumption|exact Hg1]. }
    intros (o1 & g2) (o1' & g2') (Ho1 & Hg2). apply prel_ok. split; [exact Hg2|]. split; [exact Hk1|exact Ho1].
  - apply prel_ok. split; [exact Hg1|]. split; [exact Hk1|]. repeat split; assumption.
Qed.
End Rel.

(** ** the run in affine arithmetic; the unknown k is how far reading k is off *)
Definition pts (l : list spec_float) : list anum := map Pt l.
Definition ak (f : kalman spec_float) := mk_kalman (pts (kf_A f)) (pts (kf_x f)) (pts (kf_P f)) (pts (kf_Q f)) (pts (kf_px f)) (pts (kf_tP f)).
Definition ac (k : control spec_float) := mk_ctl (pts (ct_B k)) (pts (ct_u k)) (pts (ct_Q k)) (pts (ct_BQ k)).
Definition ao (o : observation spec_float) := mk_obs (pts (ob_H o)) (pts (ob_z o)) (pts (ob_R o)) (pts (ob_y o)) (pts (ob_S o)) (pts (ob_K o)) (pts (ob_Sinv o)) (pts (ob_HP o)) (pts (ob_PHt o)) (pts (ob_KHP o)).
Definition z0 : spec_float := S754_zero false.
Definition reading_ (k : nat) : anum := match nth k car_observations z0 with S754_finite _ m e => Af (scale (Zpos m) (e + 40) 1) (repeat 0%Z k ++ [2 ^ 40]%Z) 1 | _ => Pt z0 end.
Definition readings_ : list anum := Eval vm_compute in map (fun k => if Nat.even k then reading_ k else Pt z0) (seq 0 10).
Definition aloop (sz : bool) := for_range 10 20 (ak car_fast, ac car_k, ao car_o) (gturn tiny (a_num 24 128 sz 40) (Pt car_acceleration) readings_).
Definition aend (sz : bool) : list anum := match aloop sz with Ok (f, _, _) => kf_x f | Panic _ => [] end.
Definition aend_ : list anum := Eval vm_compute in aend true.
Lemma aloop_ok sz : exists s, aloop sz = Ok s /\ kf_x (fst (fst s)) = aend_.
Proof. destruct sz; (eexists; split; [vm_compute; reflexivity|reflexivity]). Qed.

Section Readings.
Variable l : list spec_float.
Hypothesis HL : even_readings_near car_observations 1 l.
Definition eps_ (k : nat) : R := if (Nat.ltb k 10 && Nat.even k)%bool then off car_observations l k else 0%R.
Definition used : list spec_float := map (fun k => if Nat.even k then nth k l z0 else z0) (seq 0 10).
Lemma eps_1 k : (Rabs (eps_ k) <= 1)%R.
Proof.
  unfold eps_. destruct (Nat.ltb k 10) eqn:E1; cbn [andb]; [|rewrite Rabs_R0; lra]. destruct (Nat.even k) eqn:E2; [|rewrite Rabs_R0; lra].
  apply Nat.ltb_lt in E1. apply (proj2 HL); assumption.
Qed.
Lemma s40 : bpow radix2 40 = 1099511627776%R. Proof. reflexivity. Qed.
Notation AF := (af_rel 24 128 40 eps_).
Notation PT := (pt_rel 24 128).
Lemma reading_ok k m a : (k < 10)%nat -> Nat.even k = true -> (val (nth k car_observations z0) * 1099511627776)%R = IZR m -> lin eps_ 0 a = (1099511627776 * eps_ k)%R ->
  AF (Af m a 1) (nth k l z0).
Proof.
  intros Hk He Hm Ha. destruct (proj2 HL k Hk He) as (V & F & W). split; [exact V|]. split; [exact F|]. unfold enc. rewrite Ha, s40, <- Hm.
  unfold eps_. rewrite He. destruct (Nat.ltb_spec k 10); [|lia]. cbn [andb]. unfold off. fold z0.
  replace (_ - _)%R with 0%R by ring. rewrite Rabs_R0. lra.
Qed.
Ltac rval := unfold val, SF2R, F2R; cbn [car_observations nth]; change z0 with (S754_zero false);
  match goal with |- (_ * _)%R = IZR ?m => idtac end.
Lemma readings_rel : Forall2 AF readings_ used.
Proof.
  assert (Z : AF (Pt z0) z0) by (split; reflexivity).
  assert (V : forall k m, (k < 10)%nat -> (match nth k car_observations z0 with S754_finite false p e => scale (Zpos p) (e + 40) 1 = m /\ (0 <=? e + 40)%Z = true | _ => False end) -> (val (nth k car_observations z0) * 1099511627776)%R = IZR m).
  { intros k m _. destruct (nth k car_observations z0) as [| | |[] p e]; try contradiction. intros (<- & E). unfold val, SF2R, F2R. cbn [Fnum Fexp cond_Zopp]. unfold scale. rewrite E. apply Z.leb_le in E. rewrite Z.mul_1_r, mult_IZR, (IZR_Zpower radix2) by exact E. rewrite <- s40, Rmult_assoc, <- bpow_plus. reflexivity. }
  unfold used. cbn [map seq Nat.even]. unfold readings_.
  repeat (apply Forall2_cons; [first [exact Z | apply reading_ok; [lia|reflexivity|apply V; [lia|vm_compute; split; reflexivity]|cbn [lin]; ring]]|]). apply Forall2_nil.
Qed.
Lemma pts_rel v : forallb (valid_binary 24 128) v = true -> Forall2 PT (pts v) v.
Proof. induction v as [|x v IH]; cbn; intros H; [constructor|]. apply andb_prop in H. destruct H. constructor; [split; [reflexivity|assumption]|apply IH; assumption]. Qed.
Lemma pts_rel_d v : forallb (valid_binary 24 128) v = true -> Forall2 AF (pts v) v.
Proof. induction v as [|x v IH]; cbn; intros H; [constructor|]. apply andb_prop in H. destruct H. constructor; [split; [reflexivity|assumption]|apply IH; assumption]. Qed.
Lemma start_rel : st_rel PT AF (ak car_fast, ac car_k, ao car_o) (car_fast, car_k, car_o).
Proof.
  split; [|split]; cbn [fst snd]; unfold kf_mixed, ct_mixed, ob_mixed; repeat split; first [apply pts_rel; reflexivity | apply pts_rel_d; reflexivity].
Qed.
Lemma fmt32 : format_ok 24 128. Proof. split; reflexivity. Qed.
Lemma loop_used c sz : (255 <= usize_max c)%nat -> exists s, for_range 10 20 (car_fast, car_k, car_o) (gturn c (f32_num sz) car_acceleration used) = Ok s /\
  Forall2 AF aend_ (kf_x (fst (fst s))).
Proof.
  intros Hc. destruct (aloop_ok sz) as (sa & Ea & Xa).
  assert (HM : num_mixed True PT AF (a_num 24 128 sz 40) (f32_num sz)) by (apply (affine_sound_num 24 128 sz 40 fmt32 ltac:(lia) eps_ eps_1)).
  assert (R : @prel True _ _ (st_rel PT AF) (aloop sz) (for_range 10 20 (car_fast, car_k, car_o) (gturn tiny (f32_num sz) car_acceleration used))).
  { unfold aloop. refine (prel_for_range True (st_rel PT AF) 10 20 _ _ _ _ start_rel _). intros t s s' Hs. apply (gturn_rel True PT AF tiny _ _ HM); [split; reflexivity|exact readings_rel|exact Hs]. }
  rewrite Ea in R. destruct R as [(_ & X)|R]; [discriminate X|].
  destruct (for_range 10 20 _ _) as [s|e] eqn:E; [|contradiction]. exists s. split.
  - eapply sim_ok; [|exact E]. apply sim_for_range. intros. apply sim_gturn, tiny_stricter, Hc.
  - destruct R as (R & _). rewrite <- Xa. apply R.
Qed.
Lemma used_same c sz : for_range 10 20 (car_fast, car_k, car_o) (car_turn c sz l) = for_range 10 20 (car_fast, car_k, car_o) (gturn c (f32_num sz) car_acceleration used).
Proof.
  apply for_range_ext with (P := fun _ _ => True); [lia|exact I|]. intros t s Ht _. split.
  - rewrite car_turn_gturn. destruct s as ((f & k) & o). unfold gturn. destruct (set_at _ _ _ _ _ _) as [u|]; [cbn [bind]|reflexivity].
    destruct (predict _ _ _ _) as [g|]; [cbn [bind]|reflexivity]. destruct (control_ _ _ _ _ _ _) as [(k1 & g1)|]; [cbn [bind]|reflexivity].
    destruct (Nat.eqb_spec (Nat.modulo t 2) 0) as [Em|]; [|reflexivity].
    assert (E : rd l (t - 10) = rd used (t - 10)); [|rewrite E; reflexivity].
    assert (L10 : length l = 10%nat) by exact (proj1 HL). unfold used. clear HL. revert L10. generalize l. intros w L10.
    do 10 (destruct w as [|? w]; [discriminate L10|]).
    assert (T : t = 10%nat \/ t = 12%nat \/ t = 14%nat \/ t = 16%nat \/ t = 18%nat).
    { assert (t = 10 \/ t = 11 \/ t = 12 \/ t = 13 \/ t = 14 \/ t = 15 \/ t = 16 \/ t = 17 \/ t = 18 \/ t = 19)%nat by lia. repeat (destruct H as [-> | H]; [try discriminate Em; tauto|]). subst t. discriminate Em. }
    destruct T as [-> | [-> | [-> | [-> | ->]]]]; reflexivity.
  - apply wp_true || (destruct (gturn _ _ _ _ _ _); exact I).
Qed.
End Readings.

(** ** how the final estimate depends on the readings *)
Section Final.
Variable l : list spec_float.
Hypothesis HL : even_readings_near car_observations 1 l.
Local Open Scope R_scope.
Notation d := (off car_observations l).
Lemma off_1 k : (k < 10)%nat -> Nat.even k = true -> -1 <= d k <= 1.
Proof. intros H1 H2. apply Rabs_le_inv. apply (proj2 HL); assumption. Qed.
Theorem car_sensitivity c sz : (255 <= usize_max c)%nat -> exists p v a, car_run c sz l = Ok [p; v; a] /\ all_in_format 24 128 [p; v; a] /\
  (sf_finite p = true /\ sf_finite v = true /\ sf_finite a = true) /\
  Rabs (val p - (35.622738 + weighted d 0.014661 0.185079 (-0.067866) (-0.890508) 1.771599)) <= 0.006 /\
  Rabs (val v - (-0.568421 + weighted d (-0.006082) 0.233884 0.053810 (-1.186212) 0.919355)) <= 0.0025 /\
  Rabs (val a - (-1.241077 + weighted d (-0.015087) 0.100000 0.113236 (-0.431444) 0.238570)) <= 0.0006.
Proof.
  intros Hc. destruct (loop_used l HL c sz Hc) as (s & E & F). unfold aend_ in F.
  inversion F as [|? p ? ? Fp F1]; subst. inversion F1 as [|? v ? ? Fv F2]; subst. inversion F2 as [|? a ? ? Fa F3]; subst. inversion F3; subst.
  exists p, v, a. split.
  { unfold car_run. rewrite (car_setup_ok c sz Hc). cbn [bind]. change car_first with (fst (fst car_first), car_k, car_o) at 1. cbv beta iota. rewrite (car_accelerate_ok c sz Hc). cbn [bind].
    rewrite car_before_ok. cbn [bind]. rewrite (used_same l HL), E. cbn [bind]. destruct s as ((f & k) & o). cbn [fst] in *. congruence. }
  destruct Fp as (Vp & Ip & Ep), Fv as (Vv & Iv & Ev), Fa as (Va & Ia & Ea).
  split; [repeat (constructor; [assumption|]); constructor|]. split; [auto|].
  unfold enc in Ep, Ev, Ea. rewrite s40 in Ep, Ev, Ea. cbn [lin] in Ep, Ev, Ea.
  change (eps_ l 0) with (d 0) in *. change (eps_ l 1) with 0 in *. change (eps_ l 2) with (d 2) in *. change (eps_ l 3) with 0 in *. change (eps_ l 4) with (d 4) in *.
  change (eps_ l 5) with 0 in *. change (eps_ l 6) with (d 6) in *. change (eps_ l 7) with 0 in *. change (eps_ l 8) with (d 8) in *.
  pose proof (off_1 0 ltac:(lia) eq_refl). pose proof (off_1 2 ltac:(lia) eq_refl). pose proof (off_1 4 ltac:(lia) eq_refl). pose proof (off_1 6 ltac:(lia) eq_refl). pose proof (off_1 8 ltac:(lia) eq_refl).
  apply Rabs_le_inv in Ep, Ev, Ea. unfold weighted. split; [|split]; apply Rabs_le; split; lra.
Qed.
End Final.

(** ** the assertions at the end *)
Local Open Scope R_scope.
Lemma leb_val x y : in_format 24 128 x -> in_format 24 128 y -> sf_finite x = true -> sf_finite y = true -> val x <= val y -> SFleb x y = true.
Proof.
  intros Vx Vy Fx Fy H. assert (hprec : Prec_gt_0 24) by reflexivity. assert (hmax : Prec_lt_emax 24 128) by reflexivity.
  apply vf_B in Vx, Vy. destruct Vx as [a ->], Vy as [b ->]. rewrite (fin_B 24 128) in Fx, Fy. unfold val in H. rewrite !SF2R_B2SF in H. change (SFleb (B2SF a) (B2SF b)) with (Bleb a b).
  rewrite (Bleb_correct 24 128 a b Fx Fy). apply Rle_bool_true, H.
Qed.
Lemma val_le_q f q : Qle_bool (fq f) q = true -> val f <= Q2R q.
Proof. intros H. rewrite <- Q2R_fq. apply Qle_Rle, Qle_bool_iff, H. Qed.
Lemma val_ge_q f q : Qle_bool q (fq f) = true -> Q2R q <= val f.
Proof. intros H. rewrite <- Q2R_fq. apply Qle_Rle, Qle_bool_iff, H. Qed.
Lemma val_q f q : (fq f == q)%Q -> val f = Q2R q.
Proof. intros H. rewrite <- Q2R_fq. apply Qeq_eqR, H. Qed.
Lemma near_weaker w w' l : w <= w' -> even_readings_near car_observations w l -> even_readings_near car_observations w' l.
Proof. intros H (L & F). split; [exact L|]. intros k Hk He. destruct (F k Hk He) as (V & I & W). split; [exact V|]. split; [exact I|]. eapply Rle_trans; eassumption. Qed.
Theorem car_passes c sz l : (255 <= usize_max c)%nat -> even_readings_near car_observations 0.012 l -> car_main c sz l = Ok tt.
Proof.
  intros Hc HL. assert (H1 : even_readings_near car_observations 1 l) by (apply (near_weaker 0.012); [lra|exact HL]).
  destruct (car_sensitivity l H1 c sz Hc) as (p & v & a & E & VV & (Fp & Fv & Fa) & Ep & Ev & Ea).
  inversion VV as [|? ? Vp VV1]; subst. inversion VV1 as [|? ? Vv VV2]; subst. inversion VV2 as [|? ? Va _]; subst.
  unfold car_main. rewrite E. cbn [bind]. unfold car_assert_after.
  change (index_get [p; v; a] 0) with (Ok p). change (index_get [p; v; a] 1) with (Ok v). change (index_get [p; v; a] 2) with (Ok a). cbn [bind].
  assert (B : forall k, (k < 10)%nat -> Nat.even k = true -> - 0.012 <= off car_observations l k <= 0.012). { intros k G1 G2. assert (G : Rabs (off car_observations l k) <= 0.012) by (apply (proj2 HL); assumption). apply Rabs_le_inv in G. lra. }
  pose proof (B 0%nat ltac:(lia) eq_refl). pose proof (B 2%nat ltac:(lia) eq_refl). pose proof (B 4%nat ltac:(lia) eq_refl). pose proof (B 6%nat ltac:(lia) eq_refl). pose proof (B 8%nat ltac:(lia) eq_refl).
  apply Rabs_le_inv in Ep, Ev, Ea. unfold weighted in *.
  assert (Q1 : val (from_int 24 128 35) = 35) by (rewrite (val_q _ 35%Q) by (vm_compute; reflexivity); unfold Q2R; cbn; lra).
  assert (Q2 : 36.2 <= val (literal 24 128 363 10)) by (eapply Rle_trans; [|apply (val_ge_q _ (362 # 10)); vm_compute; reflexivity]; [unfold Q2R; cbn; lra]).
  assert (Q3 : val (literal 24 128 (-6) 10) <= -0.6) by (eapply Rle_trans; [apply (val_le_q _ (-6 # 10)); vm_compute; reflexivity|unfold Q2R; cbn; lra]).
  assert (Q4 : val (from_int 24 128 0) = 0) by reflexivity.
  assert (Q5 : val (literal 24 128 (-13) 10) <= -1.29) by (eapply Rle_trans; [apply (val_le_q _ (-129 # 100)); vm_compute; reflexivity|unfold Q2R; cbn; lra]).
  assert (Q6 : -1.04 <= val (literal 24 128 (-103) 100)) by (eapply Rle_trans; [|apply (val_ge_q _ (-104 # 100)); vm_compute; reflexivity]; [unfold Q2R; cbn; lra]).
  assert (R1 : is_between p (from_int 24 128 35) (literal 24 128 363 10) = true).
  { unfold is_between. rewrite (leb_val (from_int 24 128 35) p), (leb_val p (literal 24 128 363 10)); try assumption; try reflexivity; lra. }
  assert (R2 : is_between v (literal 24 128 (-6) 10) (from_int 24 128 0) = true).
  { unfold is_between. rewrite (leb_val (literal 24 128 (-6) 10) v), (leb_val v (from_int 24 128 0)); try assumption; try reflexivity; lra. }
  assert (R3 : is_between a (literal 24 128 (-13) 10) (literal 24 128 (-103) 100) = true).
  { unfold is_between. rewrite (leb_val (literal 24 128 (-13) 10) a), (leb_val a (literal 24 128 (-103) 100)); try assumption; try reflexivity; lra. }
  rewrite R1, R2, R3. reflexivity.
Qed.

(** ** a table of readings for which an assertion fails, and one that is too short *)
Definition bad_readings : list spec_float := Eval vm_compute in
  let L := literal 24 128 in [L 13214 1000; S754_nan; L 19986 1000; S754_nan; L 26786 1000; S754_nan; L 32814 1000; S754_nan; L 35586 1000; S754_nan]%Z.
Ltac near_tac := split; [reflexivity|]; intros k Hk He;
  do 10 (destruct k as [|k]; [first [discriminate He | split; [reflexivity|split; [reflexivity|]]; unfold off; cbn [nth]; rewrite <- !Q2R_fq, <- Q2R_minus, <- Q2R_abs; eapply Rle_trans; [apply (Qle_Rle _ (141 # 10000)); apply Qle_bool_iff; vm_compute; reflexivity|unfold Q2R; cbn; lra]]|]); exfalso; cbn in Hk; lia.
Lemma bad_near : even_readings_near car_observations 0.0141 bad_readings.
Proof. near_tac. Qed.
Lemma run_concrete c sz l : (255 <= usize_max c)%nat -> forall x, (s <- for_range 10 20 (car_fast, car_k, car_o) (car_turn tiny sz l) ;; Ok (kf_x (fst (fst s)))) = Ok x -> car_run c sz l = Ok x.
Proof.
  intros Hc x E. unfold car_run. rewrite (car_setup_ok c sz Hc). cbn [bind]. change car_first with (fst (fst car_first), car_k, car_o) at 1. cbv beta iota. rewrite (car_accelerate_ok c sz Hc). cbn [bind].
  rewrite car_before_ok. cbn [bind]. destruct (for_range 10 20 _ (car_turn tiny sz l)) as [s|] eqn:E1; [|discriminate E].
  rewrite (sim_ok _ _ s (sim_for_range 10 20 _ (car_turn tiny sz l) (car_turn c sz l) (fun t s => sim_gturn (f32_num sz) tiny c car_acceleration l t s (tiny_stricter c Hc))) E1).
  cbn [bind] in *. destruct s as ((f & k) & o). exact E.
Qed.
Theorem car_fails c sz : (255 <= usize_max c)%nat -> even_readings_near car_observations 0.0141 bad_readings /\ car_main c sz bad_readings = Panic AssertFailed.
Proof.
  intros Hc. split; [exact bad_near|]. unfold car_main. destruct sz; (erewrite run_concrete; [|exact Hc|vm_compute; reflexivity]); vm_compute; reflexivity.
Qed.
Theorem car_shipped : even_readings_near car_observations 0.012 car_observations.
Proof.
  split; [reflexivity|]. intros k Hk He. unfold off. rewrite Rminus_eq_0, Rabs_R0. split; [|split; [|lra]]; do 10 (destruct k as [|k]; [reflexivity|]); exfalso; cbn in Hk; lia.
Qed.
(** the state the shipped table leads to *)
Theorem car_shipped_state c sz : (255 <= usize_max c)%nat -> car_run c sz car_observations = Ok [S754_finite false 9338287 (-18); S754_finite true 9536539 (-24); S754_finite true 10410909 (-23)].
Proof. intros Hc. apply run_concrete; [exact Hc|]. destruct sz; vm_compute; reflexivity. Qed.

(** ** readings with an odd index *)
Theorem car_unused c sz l1 l2 : length l1 = 10%nat -> length l2 = 10%nat -> (forall k, Nat.even k = true -> nth k l1 z0 = nth k l2 z0) -> car_main c sz l1 = car_main c sz l2.
Proof.
  intros L1 L2 H. assert (G : forall t s, (10 <= t < 20)%nat -> car_turn c sz l1 t s = car_turn c sz l2 t s).
  { intros t ((f & k) & o) Ht. unfold car_turn. destruct (set_at _ _ _ _ _ _) as [u|]; [cbn [bind]|reflexivity].
    destruct (predict _ _ _ _) as [g|]; [cbn [bind]|reflexivity]. destruct (control_ _ _ _ _ _ _) as [(k1 & g1)|]; [cbn [bind]|reflexivity].
    destruct (Nat.eqb_spec (Nat.modulo t 2) 0) as [Em|]; [|reflexivity].
    assert (E : rd l1 (t - 10) = rd l2 (t - 10)); [|rewrite E; reflexivity].
    assert (T : t = 10%nat \/ t = 12%nat \/ t = 14%nat \/ t = 16%nat \/ t = 18%nat).
    { assert (X : (t = 10 \/ t = 11 \/ t = 12 \/ t = 13 \/ t = 14 \/ t = 15 \/ t = 16 \/ t = 17 \/ t = 18 \/ t = 19)%nat) by lia. repeat (destruct X as [-> | X]; [try discriminate Em; tauto|]). subst t. discriminate Em. }
    pose proof (H 0%nat eq_refl). pose proof (H 2%nat eq_refl). pose proof (H 4%nat eq_refl). pose proof (H 6%nat eq_refl). pose proof (H 8%nat eq_refl).
    clear - L1 L2 T H0 H1 H2 H3 H4. do 10 (destruct l1 as [|? l1]; [discriminate L1|]; destruct l2 as [|? l2]; [discriminate L2|]). cbn [nth] in *. subst.
    destruct T as [-> | [-> | [-> | [-> | ->]]]]; reflexivity. }
  unfold car_main, car_run. destruct (car_setup c sz) as [((f & k) & o)|]; [cbn [bind]|reflexivity].
  destruct (car_accelerate c sz f) as [g|]; [cbn [bind]|reflexivity]. destruct (car_assert_before _) as [[]|]; [cbn [bind]|reflexivity].
  rewrite (for_range_ext 10 20 _ (car_turn c sz l1) (car_turn c sz l2) (fun _ _ => True)); [reflexivity|lia|exact I|].
  intros t s Ht _. split; [apply G, Ht|]. destruct (car_turn _ _ _ _ _); exact I.
Qed.
