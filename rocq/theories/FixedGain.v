(** * One turn of a filter: the covariance and the gain are those of any other run with the same model, the state follows *)
From Coq Require Import ZArith QArith Qabs Lia Lqa Psatz.
From Verif Require Import Prelude Spec SpecBits SpecDefined Matrix Filter SpecFilter Wp Kernels FilterTwo HistGen HistTwo NumSim FixedNum SpecFixed SpecFixedRange SpecFixedGain BitsProof Defined FixedProof FixedRange FixedSteps FixedStable.

Section Split.
Local Open Scope nat_scope.
Context {T : Type} (c : cfg) (N : num T).

Definition with_x (f : kalman T) (x : list T) : kalman T := mk_kalman (kf_A f) x (kf_P f) (kf_Q f) (kf_px f) (kf_tP f).
Definition with_z (o : observation T) (z : list T) : observation T := mk_obs (ob_H o) z (ob_R o) (ob_y o) (ob_S o) (ob_K o) (ob_Sinv o) (ob_HP o) (ob_PHt o) (ob_KHP o).

Lemma bind_ok {A B} (m : res A) (k : A -> res B) r : bind m k = Ok r -> exists a, m = Ok a /\ k a = Ok r.
Proof. destruct m; cbn; [eauto|discriminate]. Qed.

Lemma correct_split n m (o : observation T) (f : kalman T) zr xr or' fr' y1 y2 x2 :
  correct c N n m (with_z o zr) (with_x f xr) = Ok (or', fr') ->
  mult_rowvector c N m n (ob_H o) (kf_x f) (ob_y o) = Ok y1 -> sub_inplace_b c N m 1 (ob_z o) y1 = Ok y2 ->
  multadd_rowvector c N n m (ob_K or') y2 (kf_x f) = Ok x2 ->
  exists o', correct c N n m o f = Ok (o', mk_kalman (kf_A f) x2 (kf_P fr') (kf_Q f) (kf_px f) (kf_tP f)) /\ ob_K o' = ob_K or' /\ ob_y o' = y2.
Proof.
  intros E E1 E2 E3. unfold correct, obs_correct, update_with_innovation in *. cbn [with_z with_x set_y ob_H ob_z ob_R ob_y ob_S ob_K ob_Sinv ob_HP ob_PHt ob_KHP kf_A kf_x kf_P kf_Q kf_px kf_tP] in E.
  apply bind_ok in E. destruct E as (((o1 & x1) & P1) & E & Er).
  apply bind_ok in E. destruct E as (ya & _ & E). apply bind_ok in E. destruct E as (yb & _ & E).
  cbn [with_z with_x set_y ob_H ob_z ob_R ob_y ob_S ob_K ob_Sinv ob_HP ob_PHt ob_KHP kf_A kf_x kf_P kf_Q kf_px kf_tP] in E.
  rewrite E1. cbn [bind]. rewrite E2. cbn [bind set_y ob_H ob_z ob_R ob_y ob_S ob_K ob_Sinv ob_HP ob_PHt ob_KHP].
  apply bind_ok in E. destruct E as (HP & F1 & E). rewrite F1. cbn [bind].
  apply bind_ok in E. destruct E as (S1 & F2 & E). rewrite F2. cbn [bind].
  apply bind_ok in E. destruct E as (S2 & F3 & E). rewrite F3. cbn [bind].
  apply bind_ok in E. destruct E as ((b & S3) & F4 & E). rewrite F4. cbn [bind].
  apply bind_ok in E. destruct E as (Si & F5 & E). rewrite F5. cbn [bind].
  apply bind_ok in E. destruct E as (PHt & F6 & E). rewrite F6. cbn [bind].
  apply bind_ok in E. destruct E as (K & F7 & E). rewrite F7. cbn [bind].
  apply bind_ok in E. destruct E as (x' & _ & E).
  apply bind_ok in E. destruct E as (HP2 & F8 & E). apply bind_ok in E. destruct E as (KHP & F9 & E). apply bind_ok in E. destruct E as (P2 & F10 & E).
  injection E as <- <- <-. injection Er as <- <-. cbn [ob_K] in E3. rewrite E3. cbn [bind]. rewrite F8. cbn [bind]. rewrite F9. cbn [bind]. rewrite F10. cbn [bind].
  eexists. split; [reflexivity|]. split; reflexivity.
Qed.

(** the covariance part can be evaluated: depends on A, P, Q only *)
Lemma same_cell R C (a b : list T) : same_matrix R C a b -> forall i j, i < R -> j < C -> cell C a i j = cell C b i j.
Proof. intros H i j Hi Hj. unfold cell. apply H. nia. Qed.

Lemma predict_cov_part n (f g g' : kalman T) : 1 <= n -> kf_cov c n f g -> predict c N n g = Ok g' ->
  defined n 1 (b_prodv N n (cell n (kf_A f)) (cell 1 (kf_x f))) -> exists f', predict c N n f = Ok f' /\ kf_cov c n f' g'.
Proof.
  intros Hn Hc E D. pose proof Hc as (Vf & Vg & HA & HP & HQ).
  assert (X : exists f', predict c N n f = Ok f').
  { apply (predict_defined c N n f Hn Vf). split; [exact D|].
    destruct (proj1 (predict_defined c N n g Hn Vg) (ex_intro _ g' E)) as [_ D2]. intros i j Hi Hj. specialize (D2 i j Hi Hj).
    intros K. apply D2. rewrite <- K. f_equal; [|symmetry; apply (same_cell n n); auto].
    unfold b_prodt, b_prod. apply dot_ext; intros k Hk; [apply dot_ext; intros l Hl|]; symmetry; apply (same_cell n n); auto. }
  destruct X as (f' & X). exists f'. split; [exact X|]. pose proof (predict_cov c N n f g Hn Hc) as R. rewrite X, E in R. exact R.
Qed.
Lemma correct_cov_part n m (o oref oref' : observation T) (f g g' : kalman T) : 1 <= n -> 1 <= m -> kf_cov c n f g -> ob_cov c n m o oref -> correct c N n m oref g = Ok (oref', g') ->
  (forall i, i < m -> b_sub N (cell 1 (ob_z o) i 0) (b_prodv N n (cell n (ob_H o)) (cell 1 (kf_x f)) i 0) <> None) ->
  (forall i, i < n -> b_add N (cell 1 (kf_x f) i 0) (b_prodv N m (cell m (ob_K oref')) (fun j _ => b_sub N (cell 1 (ob_z o) j 0) (b_prodv N n (cell n (ob_H o)) (cell 1 (kf_x f)) j 0)) i 0) <> None) ->
  exists o' f', correct c N n m o f = Ok (o', f') /\ cor_cov c n m (o', f') (oref', g').
Proof.
  intros Hn Hm Hc Ho E Dy Dx. pose proof Hc as (Vf & Vg & HA & HP & HQ). pose proof Ho as (Vo & Vr & HH & HR).
  assert (X : exists o' f', correct c N n m o f = Ok (o', f')).
  { pose proof Vf as (VA & Vx & VP & VQ & Vpx & VtP). pose proof Vo as (VH & Vz & VR & Vy & VS & VK & VSi & VHP & VPHt & VKHP).
    pose proof Vr as (_ & Vzr & _). pose proof Vg as (_ & Vxr & _).
    assert (R1 : SpecFilter.ob_rel c n m (with_z o (ob_z oref)) oref). { split; [|split; [exact Vr|]]. { repeat split; cbn [with_z ob_H ob_z ob_R ob_y ob_S ob_K ob_Sinv ob_HP ob_PHt ob_KHP]; first [apply VH|apply Vzr|apply VR|apply Vy|apply VS|apply VK|apply VSi|apply VHP|apply VPHt|apply VKHP]. }
      split; [exact HH|]. split; [|exact HR]. intros p Hp. reflexivity. }
    assert (R2 : SpecFilter.kf_rel c n (with_x f (kf_x g)) g). { split; [|split; [exact Vg|]]. { repeat split; cbn [with_x kf_A kf_x kf_P kf_Q kf_px kf_tP]; first [apply VA|apply Vxr|apply VP|apply VQ|apply Vpx|apply VtP]. }
      split; [exact HA|]. split; [intros p Hp; reflexivity|]. split; [exact HP|exact HQ]. }
    pose proof (correct_two c N n m _ _ _ _ Hn Hm R1 R2) as W. rewrite E in W.
    destruct (correct c N n m (with_z o (ob_z oref)) (with_x f (kf_x g))) as [[o1 f1]|] eqn:E1; [|contradiction]. destruct W as ((V1 & _) & _ & HK & _).
    pose proof V1 as (_ & _ & _ & _ & _ & VK1 & _). cbn [fst snd] in *.
    pose proof (mult_rowvector_cellwise c N m n (ob_H o) (kf_x f) (ob_y o) Hn VH Vx Vy) as C1.
    destruct (cellwise_total c _ _ _ _ _ Vy C1) as (y1 & Ey1). { intros i j v Hi Hj _. specialize (Dy i Hi). apply b_sub_def in Dy. apply Dy. }
    rewrite Ey1 in *. destruct (cellwise_out c _ _ _ _ _ _ Vy C1 eq_refl) as (Vy1 & _ & X1).
    pose proof (sub_inplace_b_cellwise c N m 1 (ob_z o) y1 Vz Vy1) as C2.
    destruct (cellwise_total c _ _ _ _ _ Vy1 C2) as (y2 & Ey2).
    { intros i j v Hi Hj Ev. replace j with 0 in * by lia. destruct (X1 i 0 Hi ltac:(lia)) as (w & _ & Ew). rewrite Ev in Ew.
      specialize (Dy i Hi). unfold b_prodv in Dy. rewrite <- Ew in Dy. exact Dy. }
    rewrite Ey2 in *. destruct (cellwise_out c _ _ _ _ _ _ Vy1 C2 eq_refl) as (Vy2 & _ & X2).
    assert (EY : forall i, i < m -> cell 1 y2 i 0 = b_sub N (cell 1 (ob_z o) i 0) (b_prodv N n (cell n (ob_H o)) (cell 1 (kf_x f)) i 0)).
    { intros i Hi. destruct (X2 i 0 Hi ltac:(lia)) as (v & Ev & ->). destruct (X1 i 0 Hi ltac:(lia)) as (w & _ & Ew). rewrite Ev in Ew. unfold b_prodv. rewrite <- Ew. reflexivity. }
    pose proof (multadd_rowvector_cellwise c N n m (ob_K o1) y2 (kf_x f) Hm VK1 Vy2 Vx) as C3.
    destruct (cellwise_total c _ _ _ _ _ Vx C3) as (x2 & Ex2).
    { intros i j v Hi Hj Ev. replace j with 0 in * by lia. cbn beta. specialize (Dx i Hi). rewrite Ev in Dx. cbn [b_add obind] in Dx. intros K0. apply Dx. rewrite <- K0.
      unfold b_prodv. rewrite (dot1_ext N m _ _ (fun k => cell m (ob_K o1) i k) (fun k => cell 1 y2 k 0)); [reflexivity| |].
      - intros k Hk. symmetry. apply (same_cell n m); auto.
      - intros k Hk. symmetry. apply EY, Hk. }
    destruct (correct_split n m o f _ _ o1 f1 y1 y2 x2 E1 Ey1 Ey2 Ex2) as (o' & X & _). eauto. }
  destruct X as (o' & f' & X). exists o', f'. split; [exact X|]. pose proof (correct_cov c N n m o oref f g Hn Hm Ho Hc) as R. rewrite X, E in R. exact R.
Qed.
End Split.

Section Turn.
Variables (c : cfg) (bits frac : Z).
Hypothesis Hf : (0 <= frac)%Z.
Notation NC := (fx_num bits frac true true).
Notation w := (ulp frac).
Notation top := (fx_top bits frac).
Notation qc := (qcell frac).

Lemma qdot_bd K (f g B : nat -> Q) : (forall k, (k < K)%nat -> Qabs (g k) <= B k) ->
  qsum K (fun k => Qabs (f k * g k)) <= qsum K (fun k => Qabs (f k) * B k).
Proof.
  intros H. apply qsum_le. intros k Hk. rewrite Qabs_Qmult, (Qmult_comm (Qabs (f k)) (Qabs (g k))), (Qmult_comm (Qabs (f k))). apply Qmult_le_compat_r; [auto|apply Qabs_nonneg].
Qed.
Lemma qdot_diff K (f a b : nat -> Q) D : (forall k, (k < K)%nat -> Qabs (a k - b k) <= D k) ->
  Qabs (qsum K (fun k => f k * a k) - qsum K (fun k => f k * b k)) <= qsum K (fun k => Qabs (f k) * D k).
Proof.
  intros H. rewrite <- qsum_minus. eapply Qle_trans; [apply qsum_abs|]. apply qsum_le. intros k Hk. cbv beta.
  setoid_replace (f k * a k - f k * b k) with (f k * (a k - b k)) by ring. rewrite Qabs_Qmult, (Qmult_comm (Qabs (f k)) (Qabs (a k - b k))), (Qmult_comm (Qabs (f k))). apply Qmult_le_compat_r; [auto|apply Qabs_nonneg].
Qed.

Theorem fx_turn_state n m (f fr fr1 fr2 : kalman Z) (o oref oref' : observation Z) (X Zb : nat -> Q) : (1 <= n)%nat -> (1 <= m)%nat ->
  kf_cov c n f fr -> ob_cov c n m o oref -> predict c NC n fr = Ok fr1 -> correct c NC n m oref fr1 = Ok (oref', fr2) ->
  (forall i, (i < n)%nat -> Qabs (qc 1 (kf_x f) i 0) <= X i) -> (forall j, (j < m)%nat -> Qabs (qc 1 (ob_z o) j 0) <= Zb j) ->
  q_turn_room bits frac n m (qc n (kf_A f)) (qc n (ob_H o)) (qc m (ob_K oref')) X Zb ->
  exists f1 o2 f2, (forall oc da, predict c (fx_num bits frac oc da) n f = Ok f1) /\ (forall oc da, correct c (fx_num bits frac oc da) n m o f1 = Ok (o2, f2)) /\
    kf_cov c n f1 fr1 /\ kf_cov c n f2 fr2 /\ ob_cov c n m o2 oref' /\ same_matrix n m (ob_K o2) (ob_K oref') /\
    (forall i, (i < n)%nat -> Qabs (qc 1 (kf_x f2) i 0 - q_turn_state n m (qc n (kf_A f)) (qc n (ob_H o)) (qc m (ob_K oref')) (fun k => qc 1 (kf_x f) k 0) (fun j => qc 1 (ob_z o) j 0) i)
       <= q_turn_rounding frac n m (qc n (ob_H o)) (qc m (ob_K oref')) i).
Proof.
  intros Hn Hm Hc Ho E1 E2 BX BZ (R1 & R2).
  pose proof Hc as (Vf & Vfr & _). pose proof Vf as (VA & Vx & VP & VQ & _). pose proof Ho as (Vo & Vor & _). pose proof Vo as (VH & Vz & _).
  set (A := qc n (kf_A f)) in *. set (H := qc n (ob_H o)) in *. set (K := qc m (ob_K oref')) in *.
  set (PX := q_big_prediction frac n A X) in *. set (Y := q_big_innovation frac n A H X Zb) in *.
  pose proof (wpos frac Hf) as Hw. pose proof (nw0 frac Hf n) as Hnw. pose proof (nw0 frac Hf m) as Hmw.
  assert (PX0 : forall i, 0 <= PX i).
  { intros i. unfold PX, q_big_prediction. assert (0 <= qsum n (fun k => Qabs (A i k) * X k)); [|lra]. apply qsum_pos. intros k Hk. apply Qmult_le_0_compat; [apply Qabs_nonneg|].
    eapply Qle_trans; [apply Qabs_nonneg|apply (BX k Hk)]. }
  assert (Y0 : forall j, (j < m)%nat -> 0 <= Y j).
  { intros j Hj. unfold Y, q_big_innovation. fold PX. assert (0 <= qsum n (fun l => Qabs (H j l) * PX l)); [|].
    { apply qsum_pos. intros k Hk. apply Qmult_le_0_compat; [apply Qabs_nonneg|apply PX0]. }
    pose proof (BZ j Hj). pose proof (Qabs_nonneg (qc 1 (ob_z o) j 0)). lra. }
  assert (KY0 : forall i, 0 <= qsum m (fun j => Qabs (K i j) * Y j)).
  { intros i. apply qsum_pos. intros j Hj. apply Qmult_le_0_compat; [apply Qabs_nonneg|apply Y0, Hj]. }
  (* predict *)
  assert (D1 : forall i, (i < n)%nat -> exists r, dot1 NC n (fun k => cell n (kf_A f) i k) (fun k => cell 1 (kf_x f) k 0) = Some r).
  { intros i Hi. destruct (dot1_ok bits frac Hf n (fun k => cell n (kf_A f) i k) (fun k => cell 1 (kf_x f) k 0) Hn) as (r & Er & _).
    - intros k Hk. split; [apply (cell_def c n n)|apply (cell_def c n 1)]; auto.
    - pose proof (qdot_bd n (fun k => A i k) (fun k => qc 1 (kf_x f) k 0) X BX) as B. pose proof (R1 i Hi) as R. pose proof (KY0 i) as K0. cbv beta in *. fold PX in R. fold Y in R.
      unfold PX in R at 1. unfold q_big_prediction in R. change (qsum n (fun k => Qabs (oq frac (cell n (kf_A f) i k) * oq frac (cell 1 (kf_x f) k 0)))) with (qsum n (fun k => Qabs (A i k * qc 1 (kf_x f) k 0))). lra.
    - eauto. }
  destruct (predict_cov_part c NC n f fr fr1 Hn Hc E1) as (f1 & F1 & C1).
  { intros i j Hi Hj. unfold b_prodv. destruct (D1 i Hi) as (r & ->). discriminate. }
  pose proof C1 as (Vf1 & _). pose proof Vf1 as (_ & Vx1 & _).
  pose proof (predict_wp c NC n f Hn Vf) as HW. rewrite F1 in HW. cbn [wp] in HW. destruct HW as (_ & (SA & SQ) & _).
  destruct (fx_predict c bits frac Hf n f f1 Hn Vf F1) as (GX & _).
  set (x := fun k => qc 1 (kf_x f) k 0) in *. set (x1 := fun k => qc 1 (kf_x f1) k 0). set (z := fun j => qc 1 (ob_z o) j 0) in *. set (p := q_predicted n A x).
  assert (X1 : forall i, (i < n)%nat -> p i - qn n * w <= x1 i /\ x1 i <= p i).
  { intros i Hi. destruct (GX i Hi) as (r & Er & B1 & B2). unfold x1, qcell. rewrite Er. unfold p, q_predicted. cbv beta in *.
    change (qc n (kf_A f)) with A in B1, B2. split; lra. }
  assert (X1b : forall i, (i < n)%nat -> Qabs (x1 i) <= PX i).
  { intros i Hi. destruct (X1 i Hi) as [B1 B2]. pose proof (qsum_abs n (fun k => A i k * x k)) as Q1. apply Qabs_le_iff in Q1. pose proof (qdot_bd n (fun k => A i k) x X BX) as B.
    cbv beta in *. unfold PX, q_big_prediction. apply Qabs_le_iff. unfold p, q_predicted in B1, B2. split; lra. }
  (* correct *)
  assert (DH : forall j, (j < m)%nat -> exists r, dot1 NC n (fun l => cell n (ob_H o) j l) (fun l => cell 1 (kf_x f1) l 0) = Some r /\ fx_dot_bound frac n (fun l => H j l) x1 r).
  { intros j Hj. destruct (dot1_ok bits frac Hf n (fun l => cell n (ob_H o) j l) (fun l => cell 1 (kf_x f1) l 0) Hn) as (r & Er & _ & Br).
    - intros k Hk. split; [apply (cell_def c m n)|apply (cell_def c n 1)]; auto.
    - pose proof (qdot_bd n (fun l => H j l) x1 PX X1b) as B. pose proof (R2 j Hj) as R. fold Y in R. unfold Y, q_big_innovation in R. fold PX in R.
      pose proof (BZ j Hj). pose proof (Qabs_nonneg (z j)). change (qc 1 (ob_z o) j 0) with (z j) in *.
      change (qsum n (fun k => Qabs (oq frac (cell n (ob_H o) j k) * oq frac (cell 1 (kf_x f1) k 0)))) with (qsum n (fun l => Qabs (H j l * x1 l))). cbv beta in *. lra.
    - exists r. split; [exact Er|exact Br]. }
  assert (DY : forall j, (j < m)%nat -> exists v, b_sub NC (cell 1 (ob_z o) j 0) (b_prodv NC n (cell n (ob_H o)) (cell 1 (kf_x f1)) j 0) = Some v /\ Qabs (fval frac v) <= Y j).
  { intros j Hj. destruct (DH j Hj) as (r & Er & Br). unfold b_prodv. rewrite Er. pose proof (cell_def c m 1 _ Vz j 0%nat Hj (le_n 1)) as Dz. pose proof (BZ j Hj) as Bz. unfold qcell in Bz.
    destruct (cell 1 (ob_z o) j 0) as [zz|]; [|congruence]. cbn [b_sub obind]. exists (zz - r)%Z.
    assert (BB : Qabs (fval frac (zz - r)) <= Y j).
    { rewrite (sub_val frac Hf). pose proof (dot_mag frac Hf _ _ _ _ Br) as M. pose proof (qdot_bd n (fun l => H j l) x1 PX X1b) as B. cbv beta in *. unfold Y, q_big_innovation. fold PX.
      apply Qabs_le_iff in M. apply Qabs_le_iff in Bz. apply Qabs_le_iff. split; lra. }
    split; [|exact BB]. pose proof (R2 j Hj) as R. fold Y in R. apply Qabs_le_iff in BB. cbn. apply (res_ok bits frac Hf); lra. }
  set (yc := fun (j : nat) (_ : nat) => b_sub NC (cell 1 (ob_z o) j 0) (b_prodv NC n (cell n (ob_H o)) (cell 1 (kf_x f1)) j 0)).
  pose proof (correct_wp c NC n m oref fr1 Hn Hm Vor) as HWr. assert (Vfr1 : kf_valid c n fr1) by apply C1. specialize (HWr Vfr1). rewrite E2 in HWr. cbn [wp fst snd] in HWr. destruct HWr as (Vor' & _).
  assert (VK : valid c n m (ob_K oref')) by apply Vor'.
  destruct (correct_cov_part c NC n m o oref oref' f1 fr1 fr2 Hn Hm C1 Ho E2) as (o2 & f2 & F2 & C2).
  { intros j Hj. destruct (DY j Hj) as (v & -> & _). discriminate. }
  { intros i Hi. fold yc. unfold b_prodv.
    destruct (dot1_ok bits frac Hf m (fun k => cell m (ob_K oref') i k) (fun k => yc k 0%nat) Hm) as (r & Er & _ & Br).
    - intros k Hk. split; [apply (cell_def c n m); auto|]. unfold yc. destruct (DY k Hk) as (v & -> & _). discriminate.
    - assert (B : qsum m (fun k => Qabs (oq frac (cell m (ob_K oref') i k) * oq frac (yc k 0%nat))) <= qsum m (fun j => Qabs (K i j) * Y j)).
      { apply (qdot_bd m (fun k => K i k)). intros k Hk. unfold yc. destruct (DY k Hk) as (v & -> & B). exact B. }
      pose proof (R1 i Hi) as R. pose proof (PX0 i). fold PX in R. fold Y in R. lra.
    - rewrite Er. pose proof (cell_def c n 1 _ Vx1 i 0%nat Hi (le_n 1)) as D. pose proof (X1b i Hi) as Bx. unfold x1, qcell in Bx. destruct (cell 1 (kf_x f1) i 0) as [xx|]; [|congruence]. cbn [b_add obind].
      assert (B : qsum m (fun k => Qabs (oq frac (cell m (ob_K oref') i k) * oq frac (yc k 0%nat))) <= qsum m (fun j => Qabs (K i j) * Y j)).
      { apply (qdot_bd m (fun k => K i k)). intros k Hk. unfold yc. destruct (DY k Hk) as (v & -> & B). exact B. }
      pose proof (dot_mag frac Hf _ _ _ _ Br) as M. pose proof (dot_up frac _ _ _ _ Br) as U. apply Qabs_le_iff in M. cbv beta in *. pose proof (R1 i Hi) as R. fold PX in R. fold Y in R.
      rewrite (add_ok bits frac Hf xx r (qsum m (fun j => Qabs (K i j) * Y j)) (qn m * w)); [discriminate| | | |].
      + lra. + apply (nwpos frac Hf m Hm). + lra. + lra. }
  destruct C2 as (CO & CF & CK). cbn [fst snd] in *.
  exists f1, o2, f2.
  split; [apply (every_build bits frac (fun N => predict c N n f) f1 F1); intros N2 HN; apply nsim_predict, HN|].
  split; [apply (every_build bits frac (fun N => correct c N n m o f1) (o2, f2) F2); intros N2 HN; apply nsim_correct, HN|].
  split; [exact C1|]. split; [exact CF|]. split; [exact CO|]. split; [exact CK|].
  intros i Hi. destruct (fx_correct c bits frac Hf n m o o2 f1 f2 Hn Hm Vo Vf1 F2) as (GY & _ & GXX & _). cbv zeta in GY, GXX.
  specialize (GXX i Hi). set (y := fun j => qc 1 (ob_y o2) j 0). 
  assert (EK : forall j, (j < m)%nat -> qc m (ob_K o2) i j = K i j). { intros j Hj. unfold K, qcell. rewrite (same_cell n m _ _ CK i j Hi Hj). reflexivity. }
  assert (ES : qsum m (fun l => qc m (ob_K o2) i l * qc 1 (ob_y o2) l 0) == qsum m (fun j => K i j * y j)).
  { apply Qle_antisym; apply qsum_le; intros j Hj; rewrite (EK j Hj); apply Qle_refl. }
  rewrite ES in GXX.
  assert (YD : forall j, (j < m)%nat -> Qabs (y j - (z j - qsum n (fun l => H j l * p l))) <= qn n * w * (1 + qsum n (fun l => Qabs (H j l)))).
  { intros j Hj. specialize (GY j Hj). pose proof (qdot_diff n (fun l => H j l) x1 p (fun _ => qn n * w)) as B. cbv beta in B.
    assert (B' : forall k, (k < n)%nat -> Qabs (x1 k - p k) <= qn n * w) by (intros k Hk; destruct (X1 k Hk); apply Qabs_le_iff; split; lra). specialize (B B').
    rewrite qsum_scal in B. apply Qabs_le_iff in B. change (qsum n (fun l => qc n (ob_H o) j l * qc 1 (kf_x f1) l 0)) with (qsum n (fun l => H j l * x1 l)) in GY. change (qc 1 (ob_z o) j 0) with (z j) in GY. change (qc 1 (ob_y o2) j 0) with (y j) in GY.
    set (hx := qsum n (fun l => H j l * x1 l)) in *. set (hp := qsum n (fun l => H j l * p l)) in *. set (W := qsum n (fun l => Qabs (H j l))) in *.
    assert (EE : qn n * w * (1 + W) == qn n * w + W * (qn n * w)) by ring. apply Qabs_le_iff. split; lra. }
  pose proof (qdot_diff m (fun j => K i j) y (fun j => z j - qsum n (fun l => H j l * p l)) _ YD) as BK. cbv beta in BK.
  unfold q_turn_state. fold p. unfold q_turn_rounding.
  assert (EE : qsum m (fun j => Qabs (K i j) * (qn n * (1 + qsum n (fun l => Qabs (H j l))))) * w == qsum m (fun k => Qabs (K i k) * (qn n * w * (1 + qsum n (fun l => Qabs (H k l)))))).
  { rewrite <- qsum_scal. apply Qle_antisym; apply qsum_le; intros j Hj; apply Qle_lteq; right; ring. }
  destruct (X1 i Hi) as [B1 B2]. change (qc 1 (kf_x f1) i 0) with (x1 i) in GXX. apply Qabs_le_iff in BK. apply Qabs_le_iff.
  set (ky := qsum m (fun j => K i j * y j)) in *. set (kz := qsum m (fun k => K i k * (z k - _))) in *. rewrite !Qmult_plus_distr_l, EE. set (Er := qsum m (fun k => Qabs (K i k) * _)) in *.
  clearbody ky kz Er x1. split; lra.
Qed.
End Turn.
