(** * A fixed-point correction with several measured components: no overflow, and close to the exact one *)
From Coq Require Import ZArith QArith Qabs Reals Qreals Lia Lra Psatz.
From Verif Require Import Prelude Spec SpecBits SpecDefined Matrix Filter SpecFilter Kernels FixedNum SpecFixed SpecFixedRange SpecFixedFactor SpecReal SpecSolve SpecFixedSolve SpecFixedInv SpecCorrect SpecFixedCorrect
  NumSim BitsProof Chol Inv Defined FixedProof FixedRange FixedScalar FixedChol FloatErr FloatPredict FloatForward FloatRange RealSchur RealTri RealInverse FloatSolvable FloatInv RealSubst FixedSolve FixedInv FixedInvert FloatCorrect FilterGen FilterTwo HistGen.
Open Scope R_scope.

Section Ops.
Variables (bits frac : Z).
Hypothesis Hf : (0 <= frac)%Z.
Notation NC := (fx_num bits frac true true).
Notation NU := (unlimited frac).
Notation v z := (Q2R (fval frac z)).
Notation w := (fx_w frac).
Notation top := (fx_limit bits frac).
Notation q o := (Q2R (match o with Some z => fval frac z | None => 0%Q end)).

(** [a] is a value, and the same as [b] *)
Definition same (a b : option Z) : Prop := a = b /\ b <> None.

Lemma sum_room K f g F : rsum K (fun k => Rabs (q (f k)) * Rabs (q (g k))) <= F -> F + INR K * w < top -> (qsum K (fun k => Qabs (oq frac (f k) * oq frac (g k))) + qn K * ulp frac <= fx_top bits frac)%Q.
Proof.
  intros H1 H2. apply Rle_Qle. rewrite Q2R_plus, Q2R_qsum, Q2R_mult, Q2R_nat. fold (fx_w frac). fold (fx_limit bits frac).
  rewrite (rsum_ext K _ (fun k => Rabs (q (f k)) * Rabs (q (g k)))). 2:{ intros k Hk. rewrite Q2R_abs, Q2R_mult, Rabs_mult. reflexivity. }
  lra.
Qed.
Lemma sum_near K f g r : fx_dot_bound frac K (fun k => oq frac (f k)) (fun k => oq frac (g k)) r -> Rabs (v r - rsum K (fun k => q (f k) * q (g k))) <= INR K * w.
Proof.
  intros (B1 & B2). apply Qle_Rle in B1, B2. rewrite Q2R_qsum in B1. rewrite Q2R_plus, Q2R_qsum, Q2R_mult, Q2R_nat in B2. fold (fx_w frac) in B2.
  rewrite (rsum_ext _ _ (fun k => q (f k) * q (g k))) in B1, B2 by (intros; apply Q2R_mult). apply Rabs_le. lra.
Qed.
Lemma dot_both K f f' g g' F : (forall k, (k < K)%nat -> same (f' k) (f k)) -> (forall k, (k < K)%nat -> same (g' k) (g k)) ->
  rsum K (fun k => Rabs (q (f k)) * Rabs (q (g k))) <= F -> F + INR K * w < top ->
  same (dot NC K f' g') (dot NU K f g) /\ Rabs (q (dot NU K f g) - rsum K (fun k => q (f k) * q (g k))) <= INR K * w.
Proof.
  intros Df Dg H1 H2. destruct (dot_ok bits frac Hf K f g) as (r & E1 & E2 & B).
  - intros k Hk. split; [apply (Df k Hk)|apply (Dg k Hk)].
  - apply (sum_room K f g F H1 H2).
  - split.
    + split; [|rewrite E2; discriminate]. rewrite E2, <- E1. apply BitsProof.dot_ext; intros k Hk; [apply (Df k Hk)|apply (Dg k Hk)].
    + rewrite E2. apply (sum_near K f g r B).
Qed.
Lemma dot1_both K f f' g g' F : (1 <= K)%nat -> (forall k, (k < K)%nat -> same (f' k) (f k)) -> (forall k, (k < K)%nat -> same (g' k) (g k)) ->
  rsum K (fun k => Rabs (q (f k)) * Rabs (q (g k))) <= F -> F + INR K * w < top ->
  same (dot1 NC K f' g') (dot1 NU K f g) /\ Rabs (q (dot1 NU K f g) - rsum K (fun k => q (f k) * q (g k))) <= INR K * w.
Proof.
  intros HK Df Dg H1 H2. destruct (dot1_ok bits frac Hf K f g HK) as (r & E1 & E2 & B).
  - intros k Hk. split; [apply (Df k Hk)|apply (Dg k Hk)].
  - apply (sum_room K f g F H1 H2).
  - split.
    + split; [|rewrite E2; discriminate]. rewrite E2, <- E1. apply BitsProof.dot1_ext; intros k Hk; [apply (Df k Hk)|apply (Dg k Hk)].
    + rewrite E2. apply (sum_near K f g r B).
Qed.
Lemma add_both a a' b b' : same a' a -> same b' b -> Rabs (q a + q b) < top -> same (b_add NC a' b') (b_add NU a b) /\ q (b_add NU a b) = q a + q b.
Proof.
  intros (-> & Da) (-> & Db) H. destruct a as [x|]; [|congruence]. destruct b as [y|]; [|congruence]. cbn [b_add obind] in *. 
  assert (E : v (x + y) = v x + v y) by apply (v_add frac Hf).
  split; [|exact E]. split; [|discriminate]. cbn. rewrite (res_real bits frac Hf); [reflexivity|]. rewrite E. exact H.
Qed.
Lemma sub_both a a' b b' : same a' a -> same b' b -> Rabs (q a - q b) < top -> same (b_sub NC a' b') (b_sub NU a b) /\ q (b_sub NU a b) = q a - q b.
Proof.
  intros (-> & Da) (-> & Db) H. destruct a as [x|]; [|congruence]. destruct b as [y|]; [|congruence]. cbn [b_sub obind] in *.
  assert (E : v (x - y) = v x - v y) by apply (v_plus frac Hf).
  split; [|exact E]. split; [|discriminate]. cbn. rewrite (res_real bits frac Hf); [reflexivity|]. rewrite E. exact H.
Qed.
Lemma same_refl a : a <> None -> same a a. Proof. split; auto. Qed.

(** sum f g against sum f' g' *)
Lemma prod_near K (f g f' g' : nat -> R) ef eg F G : (forall k, (k < K)%nat -> Rabs (f k - f' k) <= ef) -> (forall k, (k < K)%nat -> Rabs (g k - g' k) <= eg) ->
  (forall k, (k < K)%nat -> Rabs (f' k) <= F) -> (forall k, (k < K)%nat -> Rabs (g k) <= G) -> Rabs (rsum K (fun k => f k * g k) - rsum K (fun k => f' k * g' k)) <= INR K * (ef * G + F * eg).
Proof.
  intros H1 H2 H3 H4. rewrite rsum_minus. eapply Rle_trans; [apply rsum_abs|]. apply rsum_top. intros k Hk.
  replace (f k * g k - f' k * g' k) with ((f k - f' k) * g k + f' k * (g k - g' k)) by ring.
  eapply Rle_trans; [apply Rabs_triang|]. rewrite !Rabs_mult. apply Rplus_le_compat; apply Rmult_le_compat; auto using Rabs_pos.
Qed.
Lemma abs_near a b e B : Rabs (a - b) <= e -> Rabs b <= B -> Rabs a <= B + e.
Proof. intros H1 H2. replace a with ((a - b) + b) by ring. eapply Rle_trans; [apply Rabs_triang|]. lra. Qed.

(** ** the formulas *)
Variables (n m : nat) (D : corr_data) (yt : R) (Hc Pc Rc xc : nat -> nat -> option Z).
Hypothesis Hn : (1 <= n)%nat.
Hypothesis Hm : (1 <= m)%nat.
Hypothesis DH : defined m n Hc.
Hypothesis DP : defined n n Pc.
Hypothesis DR : defined m m Rc.
Hypothesis Dx : defined n 1 xc.
Notation H := (fun i j => q (Hc i j)).
Notation P := (fun i j => q (Pc i j)).
Notation Rm := (fun i j => q (Rc i j)).
Notation x := (fun i => q (xc i 0%nat)).
Hypothesis HW : fc_model frac n m D H P Rm x.
Hypothesis HR : fc_ready_y bits frac n m D yt.
Notation rho := (cd_rho D). Notation p := (cd_p D). Notation lam := (cd_lam D).

Lemma signs : 0 <= rho /\ 0 <= p /\ 0 <= cd_r D /\ 0 <= cd_x D /\ 0 < lam /\ 0 < w /\ 1 <= INR n /\ 1 <= INR m /\ 0 < / lam.
Proof.
  destruct HW as (B1 & B2 & B3 & B4 & _). destruct HR as (((L & _) & _) & _).
  split. { eapply Rle_trans; [|apply (B1 0%nat); lia]. apply (Rle_trans _ (rsum n (fun _ => 0))); [rewrite rsum_const; lra|]. apply rsum_le; intros; apply Rabs_pos. }
  split; [eapply Rle_trans; [apply Rabs_pos|apply (B2 0%nat 0%nat); lia]|]. split; [eapply Rle_trans; [apply Rabs_pos|apply (B3 0%nat 0%nat); lia]|].
  split; [eapply Rle_trans; [apply Rabs_pos|apply (B4 0%nat); lia]|].
  split; [exact L|]. split; [apply (w_bounds frac Hf)|]. split; [change 1 with (INR 1); apply le_INR, Hn|]. split; [change 1 with (INR 1); apply le_INR, Hm|].
  apply Rinv_0_lt_compat, L.
Qed.
Notation HPx i k := (rsum n (fun l => H i l * P l k)).
Notation PHx i k := (rsum n (fun l => P i l * H k l)).
Lemma HP_abs i k : (i < m)%nat -> (k < n)%nat -> rsum n (fun l => Rabs (H i l) * Rabs (P l k)) <= rho * p.
Proof. intros Hi Hk. apply (rsum_row n (fun l => H i l) (fun l => P l k)); [apply HW, Hi|intros l Hl; apply HW; assumption|exact Hn]. Qed.
Lemma PH_abs i k : (i < n)%nat -> (k < m)%nat -> rsum n (fun l => Rabs (P i l) * Rabs (H k l)) <= p * rho.
Proof. intros Hi Hk. apply (rsum_col n (fun l => P i l) (fun l => H k l)); [intros l Hl; apply HW; assumption|apply HW, Hk|exact Hn]. Qed.
Lemma HPx_abs i k : (i < m)%nat -> (k < n)%nat -> Rabs (HPx i k) <= rho * p.
Proof. intros Hi Hk. eapply Rle_trans; [apply rsum_abs|]. eapply Rle_trans; [|apply (HP_abs i k Hi Hk)]. right. apply rsum_ext. intros; apply Rabs_mult. Qed.
Lemma PHx_abs i k : (i < n)%nat -> (k < m)%nat -> Rabs (PHx i k) <= p * rho.
Proof. intros Hi Hk. eapply Rle_trans; [apply rsum_abs|]. eapply Rle_trans; [|apply (PH_abs i k Hi Hk)]. right. apply rsum_ext. intros; apply Rabs_mult. Qed.

Lemma HP_both i k : (i < m)%nat -> (k < n)%nat -> same (b_prod NC n Hc Pc i k) (b_prod NU n Hc Pc i k) /\ Rabs (q (b_prod NU n Hc Pc i k) - HPx i k) <= INR n * w /\ Rabs (q (b_prod NU n Hc Pc i k)) <= rho * p + INR n * w.
Proof.
  intros Hi Hk. destruct (dot_both n (fun l => Hc i l) (fun l => Hc i l) (fun l => Pc l k) (fun l => Pc l k) (rho * p)) as (E & B).
  - intros l Hl. apply same_refl, DH; assumption. - intros l Hl. apply same_refl, DP; assumption.
  - apply HP_abs; assumption. - destruct HR as (_ & _ & Q & _). exact Q.
  - split; [exact E|]. split; [exact B|]. apply (abs_near _ _ _ _ B), (HPx_abs i k Hi Hk).
Qed.
Lemma PH_both i k : (i < n)%nat -> (k < m)%nat -> same (b_prodt NC n Pc Hc i k) (b_prodt NU n Pc Hc i k) /\ Rabs (q (b_prodt NU n Pc Hc i k) - PHx i k) <= INR n * w /\ Rabs (q (b_prodt NU n Pc Hc i k)) <= p * rho + INR n * w.
Proof.
  intros Hi Hk. destruct (dot_both n (fun l => Pc i l) (fun l => Pc i l) (fun l => Hc k l) (fun l => Hc k l) (p * rho)) as (E & B).
  - intros l Hl. apply same_refl, DP; assumption. - intros l Hl. apply same_refl, DH; assumption.
  - apply PH_abs; assumption. - destruct HR as (_ & _ & Q & _). rewrite (Rmult_comm p). exact Q.
  - split; [exact E|]. split; [exact B|]. apply (abs_near _ _ _ _ B), (PHx_abs i k Hi Hk).
Qed.

(** the innovation covariance *)
Definition Scell (N : num Z) (i j : nat) : option Z := b_add N (b_prodt N n (b_prod N n Hc Pc) Hc i j) (Rc i j).
Lemma S_both i j : (i < m)%nat -> (j < m)%nat -> same (Scell NC i j) (Scell NU i j) /\ Rabs (q (Scell NU i j) - inn_cov n H P Rm i j) <= fc_s_err frac n D /\ Rabs (q (Scell NU i j)) <= fc_s_top frac n D.
Proof.
  intros Hi Hj. destruct signs as (S1 & S2 & S3 & S4 & S6 & S7 & S8 & S9 & _). pose proof HR as (_ & R1 & _). unfold fc_s_top in R1. pose proof HW as (B1 & _ & B3 & _).
  assert (NW : 0 <= INR n * w) by nra. assert (HA : rsum n (fun k => Rabs (H j k)) <= rho) by (apply B1, Hj).
  assert (A : rsum n (fun k => Rabs (q (b_prod NU n Hc Pc i k)) * Rabs (H j k)) <= (rho * p + INR n * w) * rho).
  { apply (rsum_col n (fun k => q (b_prod NU n Hc Pc i k)) (fun k => H j k)); [intros k Hk; apply HP_both; assumption|exact HA|exact Hn]. }
  destruct (dot_both n (fun k => b_prod NU n Hc Pc i k) (fun k => b_prod NC n Hc Pc i k) (fun k => Hc j k) (fun k => Hc j k) ((rho * p + INR n * w) * rho)) as (E & B).
  - intros k Hk. apply HP_both; assumption. - intros k Hk. apply same_refl, DH; assumption. - exact A.
  - unfold fc_s_err in R1. nra.
  - assert (E2 : Rabs (rsum n (fun k => q (b_prod NU n Hc Pc i k) * H j k) - rsum n (fun k => HPx i k * H j k)) <= INR n * w * rho).
    { rewrite rsum_minus. eapply Rle_trans; [apply rsum_abs|]. eapply Rle_trans; [|apply (rsum_col n (fun k => q (b_prod NU n Hc Pc i k) - HPx i k) (fun k => H j k) (INR n * w) rho); [intros k Hk; apply HP_both; assumption|exact HA|exact Hn]].
      right. apply rsum_ext. intros k Hk. rewrite <- Rmult_minus_distr_r. apply Rabs_mult. }
    assert (E3 : Rabs (rsum n (fun k => HPx i k * H j k)) <= rho * p * rho).
    { eapply Rle_trans; [apply rsum_abs|]. eapply Rle_trans; [|apply (rsum_col n (fun k => HPx i k) (fun k => H j k) (rho * p) rho); [intros k Hk; apply HPx_abs; assumption|exact HA|exact Hn]].
      right. apply rsum_ext. intros k Hk. apply Rabs_mult. }
    set (d := q (dot NU n (fun k => b_prod NU n Hc Pc i k) (fun k => Hc j k))) in *. set (s1 := rsum n (fun k => q (b_prod NU n Hc Pc i k) * H j k)) in *. set (s2 := rsum n (fun k => HPx i k * H j k)) in *.
    assert (E4 : Rabs (d - s2) <= fc_s_err frac n D). { replace (d - s2) with ((d - s1) + (s1 - s2)) by ring. eapply Rle_trans; [apply Rabs_triang|]. unfold fc_s_err. lra. }
    pose proof (B3 i j Hi Hj) as Br. cbv beta in Br.
    assert (E5 : Rabs (d + q (Rc i j)) <= fc_s_top frac n D). { eapply Rle_trans; [apply Rabs_triang|]. pose proof (abs_near d s2 _ _ E4 E3). unfold fc_s_top. lra. }
    destruct (add_both (b_prodt NU n (b_prod NU n Hc Pc) Hc i j) (b_prodt NC n (b_prod NC n Hc Pc) Hc i j) (Rc i j) (Rc i j)) as (G1 & G2).
    + exact E. + apply same_refl, DR; assumption. + change (Rabs (d + q (Rc i j)) < top). unfold fc_s_top in E5. lra.
    + split; [exact G1|]. unfold Scell. rewrite G2. change (q (b_prodt NU n (b_prod NU n Hc Pc) Hc i j)) with d. split; [|exact E5].
      change (Rabs (d + q (Rc i j) - (q (Rc i j) + s2)) <= fc_s_err frac n D). replace (d + q (Rc i j) - (q (Rc i j) + s2)) with (d - s2) by ring. exact E4.
Qed.

(** what depends on the inverse *)
Variables (Si : nat -> nat -> option Z) (W : nat -> nat -> R).
Hypothesis DSi : defined m m Si.
Hypothesis HSi : forall i j, (i < m)%nat -> (j < m)%nat -> Rabs (q (Si i j) - W i j) <= fc_w_err frac n m D.
Hypothesis HWs : forall i j, (i < m)%nat -> (j < m)%nat -> Rabs (W i j) <= / lam.
Notation we := (fc_w_err frac n m D). Notation sit := (fc_si_top frac n m D).
Notation ke := (fc_k_err frac n m D). Notation kt := (fc_k_top frac n m D).

Lemma Si_top i j : (i < m)%nat -> (j < m)%nat -> Rabs (q (Si i j)) <= sit.
Proof. intros Hi Hj. apply (abs_near _ _ _ _ (HSi i j Hi Hj)), (HWs i j Hi Hj). Qed.
Lemma more : 0 <= we /\ 0 <= sit /\ 0 <= INR n * w.
Proof.
  destruct signs as (S1 & S2 & S3 & S4 & S6 & S7 & S8 & S9 & _). split; [eapply Rle_trans; [apply Rabs_pos|apply (HSi 0%nat 0%nat); lia]|].
  split; [eapply Rle_trans; [apply Rabs_pos|apply (Si_top 0%nat 0%nat); lia]|]. nra.
Qed.
Definition Kcell (N : num Z) (i j : nat) : option Z := b_prod N m (b_prodt N n Pc Hc) Si i j.
Notation Kx := (gain_of n m H P W).
Lemma Kx_abs i j : (i < n)%nat -> (j < m)%nat -> Rabs (Kx i j) <= k_exact m D.
Proof.
  intros Hi Hj. unfold gain_of, k_exact. eapply Rle_trans; [apply rsum_abs|]. apply rsum_top. intros k Hk. rewrite Rabs_mult. apply Rmult_le_compat; auto using Rabs_pos. apply PHx_abs; assumption.
Qed.
Lemma K_both i j : (i < n)%nat -> (j < m)%nat -> same (Kcell NC i j) (Kcell NU i j) /\ Rabs (q (Kcell NU i j) - Kx i j) <= ke /\ Rabs (q (Kcell NU i j)) <= kt.
Proof.
  intros Hi Hj. destruct signs as (S1 & S2 & S3 & S4 & S6 & S7 & S8 & S9 & _). destruct more as (M1 & M2 & M3). pose proof HR as (_ & _ & _ & _ & R1 & _).
  destruct (dot_both m (fun k => b_prodt NU n Pc Hc i k) (fun k => b_prodt NC n Pc Hc i k) (fun k => Si k j) (fun k => Si k j) (INR m * ((p * rho + INR n * w) * sit))) as (E & B).
  - intros k Hk. apply PH_both; assumption. - intros k Hk. apply same_refl, DSi; assumption.
  - apply rsum_top. intros k Hk. apply Rmult_le_compat; auto using Rabs_pos. { apply PH_both; assumption. } { apply Si_top; assumption. }
  - lra.
  - pose proof (prod_near m (fun k => q (b_prodt NU n Pc Hc i k)) (fun k => q (Si k j)) (fun k => PHx i k) (fun k => W k j) (INR n * w) we (p * rho) sit) as G. cbv beta in G.
    assert (KE : Rabs (q (Kcell NU i j) - Kx i j) <= ke).
    { unfold gain_of. change (q (Kcell NU i j)) with (q (dot NU m (fun k => b_prodt NU n Pc Hc i k) (fun k => Si k j))).
      match goal with |- Rabs (?a - ?b) <= _ => replace (a - b) with ((a - rsum m (fun k => q (b_prodt NU n Pc Hc i k) * q (Si k j))) + (rsum m (fun k => q (b_prodt NU n Pc Hc i k) * q (Si k j)) - b)) by ring end.
      eapply Rle_trans; [apply Rabs_triang|]. eapply Rle_trans; [apply Rplus_le_compat; [exact B|apply G]|].
      + intros k Hk. apply PH_both; assumption. + intros k Hk. apply HSi; assumption. + intros k Hk. apply PHx_abs; assumption. + intros k Hk. apply Si_top; assumption.
      + unfold fc_k_err. right. ring. }
    split; [exact E|]. split; [exact KE|]. apply (abs_near _ _ _ _ KE), (Kx_abs i j Hi Hj).
Qed.
Lemma kt_pos : 0 <= ke /\ 0 <= kt.
Proof. split; [eapply Rle_trans; [apply Rabs_pos|apply (K_both 0%nat 0%nat); lia]|eapply Rle_trans; [apply Rabs_pos|apply (K_both 0%nat 0%nat); lia]]. Qed.

(** the state, for an innovation near [ye] *)
Variables (yN yU : nat -> nat -> option Z) (ye : nat -> R) (yerr : R).
Hypothesis HY : forall i, (i < m)%nat -> same (yN i 0%nat) (yU i 0%nat) /\ Rabs (q (yU i 0%nat) - ye i) <= yerr /\ Rabs (q (yU i 0%nat)) <= yt.
Definition xcell (N : num Z) (y : nat -> nat -> option Z) (i j : nat) : option Z := b_add N (xc i 0%nat) (b_prodv N m (Kcell N) y i 0%nat).
Lemma x_both i j : (i < n)%nat -> same (xcell NC yN i j) (xcell NU yU i j) /\ Rabs (q (xcell NU yU i j) - corr_x m Kx ye x i) <= fc_x_err_y frac n m D yt yerr.
Proof.
  intros Hi. destruct signs as (S1 & S2 & S3 & S4 & S6 & S7 & S8 & S9 & _). destruct more as (M1 & M2 & M3). destruct kt_pos as (K1 & K2). pose proof HR as (_ & _ & _ & _ & _ & R1 & _).
  pose proof HW as (_ & _ & _ & B4 & _). pose proof (B4 i Hi) as Bx. cbv beta in Bx. pose proof (Rabs_pos (q (xc i 0%nat))) as Px.
  assert (A : rsum m (fun k => Rabs (q (Kcell NU i k)) * Rabs (q (yU k 0%nat))) <= INR m * (kt * yt)).
  { apply rsum_top. intros k Hk. apply Rmult_le_compat; auto using Rabs_pos. { apply K_both; assumption. } { apply HY; assumption. } }
  destruct (dot1_both m (fun k => Kcell NU i k) (fun k => Kcell NC i k) (fun k => yU k 0%nat) (fun k => yN k 0%nat) (INR m * (kt * yt)) Hm) as (E & B).
  - intros k Hk. apply K_both; assumption. - intros k Hk. apply HY; assumption. - exact A. - lra.
  - set (d := q (dot1 NU m (fun k => Kcell NU i k) (fun k => yU k 0%nat))) in *. set (s := rsum m (fun k => q (Kcell NU i k) * q (yU k 0%nat))) in *.
    assert (A2 : Rabs s <= INR m * (kt * yt)). { eapply Rle_trans; [apply rsum_abs|]. eapply Rle_trans; [|exact A]. right. apply rsum_ext. intros; apply Rabs_mult. }
    destruct (add_both (xc i 0%nat) (xc i 0%nat) (b_prodv NU m (Kcell NU) yU i 0%nat) (b_prodv NC m (Kcell NC) yN i 0%nat)) as (G1 & G2).
    + apply same_refl, Dx; [assumption|lia]. + exact E.
    + change (Rabs (q (xc i 0%nat) + d) < top). eapply Rle_lt_trans; [apply Rabs_triang|]. pose proof (abs_near d s _ _ B A2). lra.
    + split; [exact G1|]. unfold xcell. rewrite G2. change (q (b_prodv NU m (Kcell NU) yU i 0%nat)) with d. unfold corr_x.
      pose proof (prod_near m (fun k => q (Kcell NU i k)) (fun k => q (yU k 0%nat)) (fun k => Kx i k) ye ke yerr (k_exact m D) yt) as G. cbv beta in G. fold s in G.
      match goal with |- Rabs (_ + d - (_ + ?b)) <= _ => replace (q (xc i 0%nat) + d - (q (xc i 0%nat) + b)) with ((d - s) + (s - b)) by ring end.
      eapply Rle_trans; [apply Rabs_triang|]. eapply Rle_trans; [apply Rplus_le_compat; [exact B|apply G]|].
      * intros k Hk. apply K_both; assumption. * intros k Hk. apply HY; assumption. * intros k Hk. apply Kx_abs; assumption. * intros k Hk. apply HY; assumption.
      * unfold fc_x_err_y. right. ring.
Qed.
Definition Pcell (N : num Z) (i j : nat) : option Z := b_sub N (Pc i j) (b_prod N m (Kcell N) (b_prod N n Hc Pc) i j).
Lemma P_both i j : (i < n)%nat -> (j < n)%nat -> same (Pcell NC i j) (Pcell NU i j) /\ Rabs (q (Pcell NU i j) - corr_P n m Kx H P i j) <= fc_P_err frac n m D.
Proof.
  intros Hi Hj. destruct signs as (S1 & S2 & S3 & S4 & S6 & S7 & S8 & S9 & _). destruct more as (M1 & M2 & M3). destruct kt_pos as (K1 & K2). pose proof HR as (_ & _ & _ & _ & _ & _ & R1).
  pose proof HW as (_ & B2 & _). pose proof (B2 i j Hi Hj) as Bx. cbv beta in Bx. pose proof (Rabs_pos (q (Pc i j))) as Px.
  assert (A : rsum m (fun k => Rabs (q (Kcell NU i k)) * Rabs (q (b_prod NU n Hc Pc k j))) <= INR m * (kt * (rho * p + INR n * w))).
  { apply rsum_top. intros k Hk. apply Rmult_le_compat; auto using Rabs_pos. { apply K_both; assumption. } { apply HP_both; assumption. } }
  destruct (dot_both m (fun k => Kcell NU i k) (fun k => Kcell NC i k) (fun k => b_prod NU n Hc Pc k j) (fun k => b_prod NC n Hc Pc k j) (INR m * (kt * (rho * p + INR n * w)))) as (E & B).
  - intros k Hk. apply K_both; assumption. - intros k Hk. apply HP_both; assumption. - exact A. - lra.
  - set (d := q (dot NU m (fun k => Kcell NU i k) (fun k => b_prod NU n Hc Pc k j))) in *. set (s := rsum m (fun k => q (Kcell NU i k) * q (b_prod NU n Hc Pc k j))) in *.
    assert (A2 : Rabs s <= INR m * (kt * (rho * p + INR n * w))). { eapply Rle_trans; [apply rsum_abs|]. eapply Rle_trans; [|exact A]. right. apply rsum_ext. intros; apply Rabs_mult. }
    destruct (sub_both (Pc i j) (Pc i j) (b_prod NU m (Kcell NU) (b_prod NU n Hc Pc) i j) (b_prod NC m (Kcell NC) (b_prod NC n Hc Pc) i j)) as (G1 & G2).
    + apply same_refl, DP; assumption. + exact E.
    + change (Rabs (q (Pc i j) - d) < top). unfold Rminus. eapply Rle_lt_trans; [apply Rabs_triang|]. rewrite Rabs_Ropp. pose proof (abs_near d s _ _ B A2). lra.
    + split; [exact G1|]. unfold Pcell. rewrite G2. change (q (b_prod NU m (Kcell NU) (b_prod NU n Hc Pc) i j)) with d. unfold corr_P.
      pose proof (prod_near m (fun k => q (b_prod NU n Hc Pc k j)) (fun k => q (Kcell NU i k)) (fun k => HPx k j) (fun k => Kx i k) (INR n * w) ke (rho * p) kt) as G. cbv beta in G.
      rewrite (rsum_ext m (fun k => q (b_prod NU n Hc Pc k j) * q (Kcell NU i k)) (fun k => q (Kcell NU i k) * q (b_prod NU n Hc Pc k j))) in G by (intros; ring). fold s in G.
      rewrite (rsum_ext m (fun k => HPx k j * Kx i k) (fun k => Kx i k * HPx k j)) in G by (intros; ring).
      match goal with |- Rabs (_ - d - (_ - ?b)) <= _ => replace (q (Pc i j) - d - (q (Pc i j) - b)) with (- ((d - s) + (s - b))) by ring end.
      rewrite Rabs_Ropp. eapply Rle_trans; [apply Rabs_triang|]. eapply Rle_trans; [apply Rplus_le_compat; [exact B|apply G]|].
      * intros k Hk. apply HP_both; assumption. * intros k Hk. apply K_both; assumption. * intros k Hk. apply HPx_abs; assumption. * intros k Hk. apply K_both; assumption.
      * unfold fc_P_err. right. ring.
Qed.
End Ops.

(** ** the linear innovation *)
Section Innov.
Variables (bits frac : Z).
Hypothesis Hf : (0 <= frac)%Z.
Notation NC := (fx_num bits frac true true).
Notation NU := (unlimited frac).
Notation w := (fx_w frac).
Notation top := (fx_limit bits frac).
Notation q o := (Q2R (match o with Some z => fval frac z | None => 0%Q end)).
Variables (n m : nat) (D : corr_data) (Hc Pc Rc xc zc : nat -> nat -> option Z).
Hypothesis Hn : (1 <= n)%nat.
Hypothesis Hm : (1 <= m)%nat.
Hypothesis DH : defined m n Hc.
Hypothesis Dx : defined n 1 xc.
Hypothesis Dz : defined m 1 zc.
Notation H := (fun i j => q (Hc i j)).
Notation P := (fun i j => q (Pc i j)).
Notation Rm := (fun i j => q (Rc i j)).
Notation x := (fun i => q (xc i 0%nat)).
Notation z := (fun i => q (zc i 0%nat)).
Hypothesis HW : fc_within frac n m D H P Rm x z.
Hypothesis HR : fc_ready bits frac n m D.
Notation rho := (cd_rho D).
(** the innovation *)
Definition ycell (N : num Z) (i j : nat) : option Z := b_sub N (zc i 0%nat) (b_prodv N n Hc xc i 0%nat).
Lemma y_both i j : (i < m)%nat -> same (ycell NC i j) (ycell NU i j) /\ Rabs (q (ycell NU i j) - innov_of n z H x i) <= fc_y_err frac n /\ Rabs (q (ycell NU i j)) <= fc_y_top frac n D.
Proof.
  intros Hi. pose proof HR as (_ & _ & _ & R1 & _). pose proof HW as ((B1 & _ & _ & B4 & _) & B5).
  assert (PZ : 0 <= cd_z D) by (eapply Rle_trans; [apply Rabs_pos|apply (B5 0%nat); lia]).
  assert (A : rsum n (fun k => Rabs (H i k) * Rabs (x k)) <= rho * cd_x D) by (apply (rsum_row n (fun k => H i k) (fun k => x k)); [apply B1, Hi|exact B4|exact Hn]).
  unfold fc_y_top, fc_y_err in R1.
  destruct (dot1_both bits frac Hf n (fun k => Hc i k) (fun k => Hc i k) (fun k => xc k 0%nat) (fun k => xc k 0%nat) (rho * cd_x D) Hn) as (E & B).
  - intros k Hk. apply same_refl, DH; assumption. - intros k Hk. apply same_refl, Dx; [assumption|lia]. - exact A. - lra.
  - assert (A2 : Rabs (rsum n (fun k => H i k * x k)) <= rho * cd_x D). { eapply Rle_trans; [apply rsum_abs|]. eapply Rle_trans; [|exact A]. right. apply rsum_ext. intros; apply Rabs_mult. }
    set (d := q (dot1 NU n (fun k => Hc i k) (fun k => xc k 0%nat))) in *. set (s := rsum n (fun k => H i k * x k)) in *. pose proof (B5 i Hi) as Bz. cbv beta in Bz.
    assert (E5 : Rabs (q (zc i 0%nat) - d) <= fc_y_top frac n D).
    { unfold Rminus. eapply Rle_trans; [apply Rabs_triang|]. rewrite Rabs_Ropp. pose proof (abs_near d s _ _ B A2). unfold fc_y_top, fc_y_err. lra. }
    destruct (sub_both bits frac Hf (zc i 0%nat) (zc i 0%nat) (b_prodv NU n Hc xc i 0%nat) (b_prodv NC n Hc xc i 0%nat)) as (G1 & G2).
    + apply same_refl, Dz; [assumption|lia]. + exact E. + change (Rabs (q (zc i 0%nat) - d) < top). unfold fc_y_top, fc_y_err in E5. lra.
    + split; [exact G1|]. unfold ycell. rewrite G2. change (q (b_prodv NU n Hc xc i 0%nat)) with d. split; [|exact E5].
      change (Rabs (q (zc i 0%nat) - d - (q (zc i 0%nat) - s)) <= fc_y_err frac n). replace (q (zc i 0%nat) - d - (q (zc i 0%nat) - s)) with (-(d - s)) by ring. rewrite Rabs_Ropp. exact B.
Qed.
End Innov.

(** a list with the given cells *)
Lemma list_of_cells (c : cfg) m (S : nat -> nat -> option Z) (l : list Z) : (1 <= m)%nat -> valid c m m l -> defined m m S ->
  exists A, valid c m m A /\ forall i j, (i < m)%nat -> (j < m)%nat -> cell m A i j = S i j.
Proof.
  intros Hm (V1 & V2) DS. set (g := fun t => match S (t / m)%nat (t mod m)%nat with Some y => y | None => 0%Z end).
  exists (map g (seq 0 (m * m))). split.
  - split; [rewrite map_length, seq_length; lia|]. unfold slice_ok in *. rewrite map_length, seq_length. lia.
  - intros i j Hi Hj. unfold cell. assert (Hij : (i * m + j < m * m)%nat) by nia.
    rewrite (nth_error_nth' _ 0%Z) by (rewrite map_length, seq_length; exact Hij). rewrite (nth_indep _ 0%Z (g 0%nat)) by (rewrite map_length, seq_length; exact Hij).
    rewrite map_nth, seq_nth by exact Hij. cbn [Nat.add]. unfold g.
    replace ((i * m + j) / m)%nat with i by (rewrite Nat.div_add_l by lia; rewrite Nat.div_small by exact Hj; lia).
    replace ((i * m + j) mod m)%nat with j by (rewrite Nat.add_comm, Nat.mod_add by lia; rewrite Nat.mod_small by exact Hj; reflexivity).
    specialize (DS i j Hi Hj). destruct (S i j); [reflexivity|congruence].
Qed.

Section Run.
Variables (c : cfg) (bits frac : Z).
Hypothesis Hf : (0 <= frac)%Z.
Notation NC := (fx_num bits frac true true).
Notation NU := (unlimited frac).
Notation v z := (Q2R (fval frac z)).
Notation q o := (Q2R (match o with Some z => fval frac z | None => 0%Q end)).

(** on cells: the matrix S has a factor, and the factor an inverse, in every build *)
Lemma factor_exists m (S : nat -> nat -> option Z) (l : list Z) sig lam : (1 <= m)%nat -> valid c m m l -> defined m m S ->
  (forall i, (i < m)%nat -> q (S i i) <= sig) -> eig_above m (sa frac S) lam -> fx_inv_ready bits frac m sig lam ->
  exists L X, b_factor NC m S L /\ b_idle NC m S L /\ b_factor NU m S L /\ b_inverse NC m L X /\ b_inverse NU m L X /\ defined m m X.
Proof.
  intros Hm VL DS Hsig Heig HR. destruct (list_of_cells c m S l Hm VL DS) as (A & VA & CA).
  assert (HA : forall i, (i < m)%nat -> q (cell m A i i) <= sig) by (intros i Hi; rewrite CA by exact Hi; apply Hsig, Hi).
  assert (EA : eig_above m (sa frac (cell m A)) lam).
  { intros x. specialize (Heig x). eapply Rle_trans; [exact Heig|]. right. unfold quad. apply rsum_ext. intros i Hi. apply rsum_ext. intros j Hj. unfold sa. rewrite CA by lia. reflexivity. }
  destruct (fx_accepts c bits frac Hf m A sig lam Hm VA HA EA (proj1 HR)) as (L & EL & _).
  assert (EU : cholesky_decompose_lower c NU m m A = Ok (true, L)) by (exact (nsim_ok _ _ _ (nsim_cholesky c NC NU (fx_unlimited bits frac) m m A) (EL true true))).
  destruct (cholesky_bits c NU m A true L Hm VA EU) as (STL & HB). cbv iota in HB.
  assert (HB' : b_factor NU m S (cell m L)).
  { destruct HB as (B1 & B2). split; [|exact B2]. intros i Hi. destruct (B1 i Hi) as (s & t & d & E1 & E2 & E3 & E4 & E5 & E6). exists s, t, d. rewrite CA in E1 by assumption.
    repeat (split; [assumption|]). intros j Hj. rewrite <- CA by lia. apply E6, Hj. }
  destruct (fit_factor bits frac Hf m S (cell m L) sig lam Hm Hsig Heig (proj1 HR) HB') as (F1 & F2).
  assert (VL' : valid c m m L) by (apply (valid_length c m m A); [exact VA|apply STL]).
  destruct (factor_rows bits frac Hf m S (cell m L) sig lam Hm Hsig Heig (proj1 HR) HB') as (_ & _ & C1 & _).
  pose proof (invert_spec c NU m L A Hm VL' VA) as IS. destruct (invert_l_cholesky c NU m L A) as [X0|er] eqn:EX.
  2:{ exfalso. destruct IS as (_ & NT). apply NT. split; [apply unlimited_total, Hf|]. intros i y Hi Ex. destruct (C1 i Hi) as (D & _). rewrite Ex in D. cbn.
      destruct (Z.eqb_spec y 0) as [->|]; [|discriminate]. rewrite (v_zero frac Hf) in D. lra. }
  destruct (invert_bits c NU m L A X0 Hm VL' VA EX) as (STX & HX).
  assert (VX : valid c m m X0) by (apply (valid_length c m m A); [exact VA|apply STX]).
  assert (DX : defined m m (cell m X0)). { intros i j Hi Hj. destruct (Kernels.cell_some c m m X0 i j VX Hi Hj) as (y & Ey & _). rewrite Ey. discriminate. }
  exists (cell m L), (cell m X0). destruct (invert_cells bits frac Hf m S (cell m L) (cell m X0) sig lam Hm Hsig Heig HR HB' HX DX) as (FX & _). auto 7.
Qed.

Variables (n m : nat) (D : corr_data) (yt : R) (o : observation Z) (f : kalman Z).
Hypothesis Hn : (1 <= n)%nat.
Hypothesis Hm : (1 <= m)%nat.
Hypothesis Ho : ob_valid c n m o.
Hypothesis Hv : kf_valid c n f.
Notation H := (fcell frac n (ob_H o)).
Notation P := (fcell frac n (kf_P f)).
Notation Rm := (fcell frac m (ob_R o)).
Notation x := (fun i => fcell frac 1 (kf_x f) i 0).
Hypothesis HW : fc_model frac n m D H P Rm x.
Hypothesis HR : fc_ready_y bits frac n m D yt.
Notation Hc := (cell n (ob_H o)). Notation Pc := (cell n (kf_P f)). Notation Rc := (cell m (ob_R o)). Notation xc := (cell 1 (kf_x f)).
Notation lam := (cd_lam D).

Lemma def_of R C l : valid c R C l -> defined R C (cell C (l : list Z)).
Proof. intros V i j Hi Hj. destruct (Kernels.cell_some c R C l i j V Hi Hj) as (y & Ey & _). rewrite Ey. discriminate. Qed.
Lemma dH : defined m n Hc. Proof. apply def_of, Ho. Qed.
Lemma dP : defined n n Pc. Proof. apply def_of, Hv. Qed.
Lemma dR : defined m m Rc. Proof. apply def_of, Ho. Qed.
Lemma dx : defined n 1 xc. Proof. apply def_of, Hv. Qed.
Notation SB := (S_both bits frac Hf n m D yt Hc Pc Rc xc Hn Hm dH dP dR HW HR).

Lemma serr_pos : 0 <= fc_s_err frac n D.
Proof. eapply Rle_trans; [apply Rabs_pos|apply (SB 0%nat 0%nat); lia]. Qed.
(** any S with the value of the formula *)
Lemma cov_facts (S : nat -> nat -> option Z) : (forall i j, (i < m)%nat -> (j < m)%nat -> S i j = Scell n Hc Pc Rc NU i j) ->
  defined m m S /\ (forall i, (i < m)%nat -> q (S i i) <= fc_s_top frac n D) /\ eig_above m (sa frac S) lam /\
  (forall i j, (i < m)%nat -> (j < m)%nat -> Rabs (upper_of (inn_cov n H P Rm) i j - sa frac S i j) <= fc_s_err frac n D) /\ eig_above m (upper_of (inn_cov n H P Rm)) lam.
Proof.
  intros E. assert (SD : forall i j, (i < m)%nat -> (j < m)%nat -> Rabs (upper_of (inn_cov n H P Rm) i j - sa frac S i j) <= fc_s_err frac n D).
  { intros i j Hi Hj. unfold upper_of, sa. rewrite E by lia. rewrite Rabs_minus_sym. apply SB; lia. }
  destruct HW as (_ & _ & _ & _ & HE). pose proof serr_pos as PE. pose proof (pos_INR m) as Nm.
  split; [intros i j Hi Hj; rewrite E by assumption; apply SB; assumption|]. split; [intros i Hi; rewrite E by assumption; eapply Rle_trans; [apply Rle_abs|]; apply SB; assumption|].
  split; [|split; [exact SD|]].
  - intros t. assert (SD' : forall i j, (i < m)%nat -> (j < m)%nat -> Rabs (sa frac S i j - upper_of (inn_cov n H P Rm) i j) <= fc_s_err frac n D) by (intros i j Hi Hj; rewrite Rabs_minus_sym; apply SD; assumption).
    pose proof (quad_near m (sa frac S) _ _ t PE SD') as Q. pose proof (HE t) as Q2. pose proof (rsum_sq_abs m t). lra.
  - intros t. eapply Rle_trans; [|apply HE]. apply Rmult_le_compat_r; [apply rsum_sq_abs|]. assert (0 <= INR m * fc_s_err frac n D) by (apply Rmult_le_pos; assumption). lra.
Qed.
(** any inverse computed from a factor of such an S *)
Lemma inv_facts (S L Si : nat -> nat -> option Z) W : (forall i j, (i < m)%nat -> (j < m)%nat -> S i j = Scell n Hc Pc Rc NU i j) -> b_factor NU m S L -> b_inverse NU m L Si -> defined m m Si ->
  inverse_of m (upper_of (inn_cov n H P Rm)) W ->
  (forall i j, (i < m)%nat -> (j < m)%nat -> Rabs (q (Si i j) - W i j) <= fc_w_err frac n m D) /\ (forall i j, (i < m)%nat -> (j < m)%nat -> Rabs (W i j) <= / lam).
Proof.
  intros ES HL HI DSi IW. destruct (cov_facts S ES) as (_ & Hsig & Heig & SD & EA). pose proof (proj1 HR) as RI. pose proof (proj1 (proj1 RI)) as Pl.
  destruct (invert_cells bits frac Hf m S L Si (fc_s_top frac n D) lam Hm Hsig Heig RI HL HI DSi) as (_ & NEAR). split.
  - apply (NEAR (upper_of (inn_cov n H P Rm)) W); auto; [|apply serr_pos]. intros i j _ _. unfold upper_of. rewrite Nat.min_comm, Nat.max_comm. reflexivity.
  - apply (inverse_small m _ W lam Pl EA IW).
Qed.

(** with an innovation near [ye] the update runs, and its results are near those of the exact update *)
Variables (yN yU : nat -> nat -> option Z) (ye : nat -> R) (yerr : R).
Hypothesis HY : forall i, (i < m)%nat -> same (yN i 0%nat) (yU i 0%nat) /\ Rabs (q (yU i 0%nat) - ye i) <= yerr /\ Rabs (q (yU i 0%nat)) <= yt.

Lemma update_runs : can_update NC n m Hc Rc xc Pc yN.
Proof.
  assert (ES : forall i j, (i < m)%nat -> (j < m)%nat -> Scell n Hc Pc Rc NU i j = Scell n Hc Pc Rc NU i j) by reflexivity.
  destruct (cov_facts _ ES) as (DS & Hsig & Heig & _ & EA). pose proof (proj1 HR) as RI. pose proof (proj1 (proj1 RI)) as Pl.
  destruct Ho as (_ & _ & VR & _). destruct (factor_exists m (Scell n Hc Pc Rc NU) (ob_R o) (fc_s_top frac n D) lam Hm VR DS Hsig Heig RI) as (L & Si & L1 & L2 & L3 & I1 & I2 & DSi).
  destruct (inverse_exists m _ lam Pl EA) as (W & IW). destruct (inv_facts _ L Si W ES L3 I2 DSi IW) as (NW & SW).
  pose proof (K_both bits frac Hf n m D yt Hc Pc Rc xc Hn Hm dH dP HW HR Si W DSi NW SW) as KB.
  pose proof (x_both bits frac Hf n m D yt Hc Pc Rc xc Hn Hm dH dP dx HW HR Si W DSi NW SW yN yU ye yerr HY) as XB.
  pose proof (P_both bits frac Hf n m D yt Hc Pc Rc xc Hn Hm dH dP HW HR Si W DSi NW SW) as PB.
  exists (Scell n Hc Pc Rc NU), L, Si, (Kcell n m Hc Pc Si NC), (xcell n m Hc Pc xc Si NC yN), (Pcell n m Hc Pc Si NC).
  split. { intros i j Hi Hj. symmetry. apply SB; assumption. }
  split; [exact L1|]. split; [exact I1|]. split; [reflexivity|]. split; [reflexivity|]. split; [reflexivity|].
  assert (G : forall a b, same a b -> a <> None) by (intros a b (-> & N); exact N).
  split; [exact DS|]. split; [exact DSi|].
  split; [intros i j Hi Hj; eapply G, KB; assumption|]. split; [intros i j Hi Hj; eapply G, XB; assumption|]. split; [intros i j Hi Hj; eapply G, PB; assumption|]. exact L2.
Qed.
Lemma update_near (L Si K x' P' : list Z) (y : list Z) W : valid c m m Si -> (forall i, (i < m)%nat -> cell 1 y i 0 = yU i 0%nat) ->
  b_update NU n m Hc Rc Pc xc (cell 1 y) (cell m L) (cell m Si) (cell m K) (cell 1 x') (cell n P') ->
  inverse_of m (upper_of (inn_cov n H P Rm)) W -> let G := gain_of n m H P W in
  (forall i j, (i < n)%nat -> (j < m)%nat -> Rabs (fcell frac m K i j - G i j) <= fc_k_err frac n m D) /\
  (forall i, (i < n)%nat -> Rabs (fcell frac 1 x' i 0 - corr_x m G ye x i) <= fc_x_err_y frac n m D yt yerr) /\
  (forall i j, (i < n)%nat -> (j < n)%nat -> Rabs (fcell frac n P' i j - corr_P n m G H P i j) <= fc_P_err frac n m D).
Proof.
  intros VS Ey (S & HS & HL & HI & HK & HX & HP) IW G.
  assert (ES : forall i j, (i < m)%nat -> (j < m)%nat -> S i j = Scell n Hc Pc Rc NU i j) by exact HS.
  destruct (cov_facts S ES) as (_ & Hsig & Heig & _ & _).
  assert (HL' : b_factor NU m S (cell m L)).
  { destruct HL as [HL|HL]; [exact HL|]. exfalso. exact (never_refused bits frac Hf m S (cell m L) (fc_s_top frac n D) lam Hm Hsig Heig (proj1 (proj1 HR)) HL). }
  pose proof (def_of m m _ VS) as DSi. destruct (inv_facts S _ _ W ES HL' HI DSi IW) as (NW & SW).
  pose proof (K_both bits frac Hf n m D yt Hc Pc Rc xc Hn Hm dH dP HW HR (cell m Si) W DSi NW SW) as KB.
  pose proof (x_both bits frac Hf n m D yt Hc Pc Rc xc Hn Hm dH dP dx HW HR (cell m Si) W DSi NW SW yN yU ye yerr HY) as XB.
  pose proof (P_both bits frac Hf n m D yt Hc Pc Rc xc Hn Hm dH dP HW HR (cell m Si) W DSi NW SW) as PB.
  assert (EK : forall i j, (i < n)%nat -> (j < m)%nat -> cell m K i j = Kcell n m Hc Pc (cell m Si) NU i j) by exact HK.
  assert (EX : forall i, (i < n)%nat -> cell 1 x' i 0 = xcell n m Hc Pc xc (cell m Si) NU yU i 0).
  { intros i Hi. rewrite HX by exact Hi. unfold xcell, b_prodv. f_equal. apply BitsProof.dot1_ext; intros k Hk; [apply EK; assumption|]. apply Ey, Hk. }
  assert (EP : forall i j, (i < n)%nat -> (j < n)%nat -> cell n P' i j = Pcell n m Hc Pc (cell m Si) NU i j).
  { intros i j Hi Hj. rewrite HP by assumption. unfold Pcell, b_prod at 1 3. f_equal. apply BitsProof.dot_ext; intros k Hk; [apply EK; assumption|reflexivity]. }
  split; [intros i j Hi Hj|split; [intros i Hi|intros i j Hi Hj]].
  - unfold fcell at 1, qcell at 1. rewrite (EK i j Hi Hj). apply KB; assumption.
  - unfold fcell at 1, qcell at 1. rewrite (EX i Hi). apply XB; assumption.
  - unfold fcell at 1, qcell at 1. rewrite (EP i j Hi Hj). apply PB; assumption.
Qed.
End Run.

Theorem fx_correct_near : forall (bits frac : Z), (0 <= frac)%Z -> forall (c : cfg) (n m : nat) (o : observation Z) (f : kalman Z) (D : corr_data), (1 <= n)%nat -> (1 <= m)%nat -> ob_valid c n m o -> kf_valid c n f ->
  let H := fcell frac n (ob_H o) in let P := fcell frac n (kf_P f) in let Rm := fcell frac m (ob_R o) in let z := fun i => fcell frac 1 (ob_z o) i 0 in let x := fun i => fcell frac 1 (kf_x f) i 0 in
  fc_within frac n m D H P Rm x z -> fc_ready bits frac n m D ->
  exists o' f', (forall oc da, correct c (fx_num bits frac oc da) n m o f = Ok (o', f')) /\
    forall W, inverse_of m (upper_of (inn_cov n H P Rm)) W ->
      let K := gain_of n m H P W in let y := innov_of n z H x in
      (forall i j, (i < n)%nat -> (j < m)%nat -> Rabs (fcell frac m (ob_K o') i j - K i j) <= fc_k_err frac n m D) /\
      (forall i, (i < n)%nat -> Rabs (fcell frac 1 (kf_x f') i 0 - corr_x m K y x i) <= fc_x_err frac n m D) /\
      (forall i j, (i < n)%nat -> (j < n)%nat -> Rabs (fcell frac n (kf_P f') i j - corr_P n m K H P i j) <= fc_P_err frac n m D).
Proof.
  intros bits frac Hf c n m o f D Hn Hm Ho Hv H P Rm z x HW HR.
  pose proof (y_both bits frac Hf n m D (cell n (ob_H o)) (cell n (kf_P f)) (cell m (ob_R o)) (cell 1 (kf_x f)) (cell 1 (ob_z o)) Hn Hm (dH c n m o Ho) (dx c n f Hv)
    (def_of c m 1 _ (proj1 (proj2 Ho))) HW HR) as YB.
  assert (HY := fun i Hi => YB i 0%nat Hi). clear YB.
  pose proof (update_runs c bits frac Hf n m D (fc_y_top frac n D) o f Hn Hm Ho Hv (proj1 HW) HR _ _ _ _ HY) as (S & L & Si & K & x' & P' & Q1 & Q2 & Q3 & Q4 & Q5 & Q6 & Q7 & Q8 & Q9 & Q10 & Q11 & Q12).
  assert (E : exists o' f', correct c (fx_num bits frac true true) n m o f = Ok (o', f')).
  { apply (correct_defined c _ n m o f Hn Hm Ho Hv). exists (ycell n (cell n (ob_H o)) (cell 1 (kf_x f)) (cell 1 (ob_z o)) (fx_num bits frac true true)), S, L, Si, K, x', P'.
    split; [reflexivity|]. repeat (split; [assumption|]). split; [|auto 8]. intros i j Hi Hj. replace j with 0%nat by lia. destruct (HY i Hi) as ((-> & N) & _). exact N. }
  clear S L Si K x' P' Q1 Q2 Q3 Q4 Q5 Q6 Q7 Q8 Q9 Q10 Q11 Q12. destruct E as (o' & f' & E). exists o', f'.
  destruct (every_build bits frac (fun N => correct c N n m o f) (o', f') E) as (EA & EU); [intros N2 HN; apply nsim_correct, HN|].
  split; [exact EA|]. intros W IW K y.
  destruct (correct_bits' Z c (unlimited frac) n m o o' f f' Hn Hm Ho Hv EU) as (EY & EB).
  assert (VS : valid c m m (ob_Sinv o')). { pose proof (FilterTwo.correct_wp c (unlimited frac) n m o f Hn Hm Ho Hv) as WP. rewrite EU in WP. destruct WP as (V & _). apply V. }
  exact (update_near c bits frac Hf n m D (fc_y_top frac n D) o f Hn Hm Ho Hv (proj1 HW) HR _ _ _ _ HY (ob_S o') (ob_Sinv o') (ob_K o') (kf_x f') (kf_P f') (ob_y o') W VS EY EB IW).
Qed.

Lemma nsim_correct_nl (c : cfg) (N1 N2 : num Z) n m h o f : refines N1 N2 -> nsim (correct_nonlinear c N1 n m h o f) (correct_nonlinear c N2 n m h o f).
Proof.
  intros HN. unfold correct_nonlinear, obs_correct_nonlinear.
  apply nsim_bind; [|intros [[? ?] ?]; apply nsim_refl]. apply nsim_bind; [apply nsim_refl|]. intros y. apply nsim_bind; [apply nsim_sub_inplace_b, HN|]. intros y'. apply nsim_update, HN.
Qed.
Theorem fx_correct_nl_near : forall (bits frac : Z), (0 <= frac)%Z -> forall (c : cfg) (n m : nat) (h : list Z -> list Z -> res (list Z)) (o : observation Z) (f : kalman Z) (out : list Z) (D : corr_data),
  (1 <= n)%nat -> (1 <= m)%nat -> ob_valid c n m o -> kf_valid c n f -> h (kf_x f) (ob_y o) = Ok out -> valid c m 1 out ->
  let H := fcell frac n (ob_H o) in let P := fcell frac n (kf_P f) in let Rm := fcell frac m (ob_R o) in let x := fun i => fcell frac 1 (kf_x f) i 0 in
  let y := fun i => fcell frac 1 (ob_z o) i 0 - fcell frac 1 out i 0 in
  fc_model frac n m D H P Rm x -> (forall i, (i < m)%nat -> Rabs (y i) <= cd_z D) -> fc_ready_y bits frac n m D (cd_z D) ->
  exists o' f', (forall oc da, correct_nonlinear c (fx_num bits frac oc da) n m h o f = Ok (o', f')) /\
    forall W, inverse_of m (upper_of (inn_cov n H P Rm)) W ->
      let K := gain_of n m H P W in
      (forall i j, (i < n)%nat -> (j < m)%nat -> Rabs (fcell frac m (ob_K o') i j - K i j) <= fc_k_err frac n m D) /\
      (forall i, (i < n)%nat -> Rabs (fcell frac 1 (kf_x f') i 0 - corr_x m K y x i) <= fc_x_err_y frac n m D (cd_z D) 0) /\
      (forall i j, (i < n)%nat -> (j < n)%nat -> Rabs (fcell frac n (kf_P f') i j - corr_P n m K H P i j) <= fc_P_err frac n m D).
Proof.
  intros bits frac Hf c n m h o f out D Hn Hm Ho Hv Eh Vo H P Rm x y HW HZ HR.
  set (yc := fun (N : num Z) (i j : nat) => b_sub N (cell 1 (ob_z o) i 0) (cell 1 out i 0)).
  assert (HY : forall i, (i < m)%nat -> same (yc (fx_num bits frac true true) i 0%nat) (yc (unlimited frac) i 0%nat) /\
     Rabs (Q2R (match yc (unlimited frac) i 0%nat with Some z => fval frac z | None => 0%Q end) - y i) <= 0 /\ Rabs (Q2R (match yc (unlimited frac) i 0%nat with Some z => fval frac z | None => 0%Q end)) <= cd_z D).
  { intros i Hi. pose proof HR as (_ & _ & _ & RY & _).
    destruct (sub_both bits frac Hf (cell 1 (ob_z o) i 0) (cell 1 (ob_z o) i 0) (cell 1 out i 0) (cell 1 out i 0)) as (G1 & G2).
    + apply same_refl. apply (def_of c m 1); [apply Ho|exact Hi|lia]. + apply same_refl. apply (def_of c m 1); [exact Vo|exact Hi|lia].
    + eapply Rle_lt_trans; [apply (HZ i Hi)|exact RY].
    + split; [exact G1|]. unfold yc. rewrite G2. split; [|apply (HZ i Hi)].
      match goal with |- Rabs (?a - ?b) <= 0 => change (Rabs (a - a) <= 0) end. unfold Rminus. rewrite Rplus_opp_r, Rabs_R0. lra. }
  pose proof (update_runs c bits frac Hf n m D (cd_z D) o f Hn Hm Ho Hv HW HR _ _ _ _ HY) as CU.
  assert (E : exists o' f', correct_nonlinear c (fx_num bits frac true true) n m h o f = Ok (o', f')).
  { apply (correct_nl_defined c _ n m h o f out (yc (fx_num bits frac true true)) Hn Hm Ho Hv Eh Vo); [reflexivity| |exact CU].
    intros i j Hi Hj. replace j with 0%nat by lia. destruct (HY i Hi) as ((-> & N) & _). exact N. }
  destruct E as (o' & f' & E). exists o', f'.
  destruct (every_build bits frac (fun N => correct_nonlinear c N n m h o f) (o', f') E) as (EA & EU); [intros N2 HN; apply nsim_correct_nl, HN|].
  split; [exact EA|]. intros W IW K.
  assert (Hh : forall out', h (kf_x f) (ob_y o) = Ok out' -> valid c m 1 out') by (intros out' E'; assert (out' = out) by congruence; subst; exact Vo).
  destruct (correct_nl_bits' Z c (unlimited frac) n m h o o' f f' Hn Hm Ho Hv Hh EU) as ((out' & Eo & EY) & EB). assert (out' = out) by congruence. subst out'.
  assert (VS : valid c m m (ob_Sinv o')).
  { assert (EV : correct_nonlinear c (unlimited frac) n m (fun _ _ => Ok out) o f = Ok (o', f')).
    { revert EU. unfold correct_nonlinear, obs_correct_nonlinear. rewrite Eh. auto. }
    pose proof (FilterTwo.correct_nonlinear_wp c (unlimited frac) n m (fun _ _ => Ok out) o f Hn Hm Ho Hv) as WP. rewrite EV in WP.
    destruct WP as (V & _); [intros ? ? _ _; exact Vo|]. apply V. }
  exact (update_near c bits frac Hf n m D (cd_z D) o f Hn Hm Ho Hv HW HR _ _ _ _ HY (ob_S o') (ob_Sinv o') (ob_K o') (kf_x f') (kf_P f') (ob_y o') W VS EY EB IW).
Qed.
