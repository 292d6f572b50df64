(** * What a failed decomposition does to floats: single-sensor corrections *)
From Coq Require Import Lia.
From Verif Require Import Spec Matrix Filter SpecFilter Wp Kernels Access Chol Inv FilterGen BuildSim FloatNum SpecFloats FloatWit.

Section One.
Context {T : Type} (N : num T).

(** the 1x1 decomposition and inverse, symbolically *)
Lemma chol_one s tl : cholesky_decompose_lower tiny N 1 1 (s :: tl) =
  (v <- n_mul N s (n_zero N) ;;
   if n_le N s (n_zero N) then Ok (false, v :: tl)
   else e <- n_sqrt N s ;; d <- n_recip N e ;; Ok (true, e :: tl)).
Proof.
  cbn. destruct (n_mul N s (n_zero N)); cbn; [|reflexivity].
  destruct (n_le N s (n_zero N)); cbn; [reflexivity|].
  destruct (n_sqrt N s); cbn; [|reflexivity]. destruct (n_recip N a0); reflexivity.
Qed.
Lemma invert_one v mtl w wtl : invert_l_cholesky tiny N 1 (v :: mtl) (w :: wtl) =
  (r <- n_recip N v ;; a <- n_add N (n_one N) (n_sum0 N) ;; b <- n_mul N a r ;;
   r2 <- n_recip N v ;; a <- n_add N b (n_sum0 N) ;; b <- n_mul N a r2 ;; Ok (b :: wtl)).
Proof.
  unfold invert_l_cholesky, invert_phase1, invert_phase2, sum_range. cbn. destruct (n_recip N v) as [r|]; cbn; [|reflexivity].
  destruct (n_add N (n_one N) (n_sum0 N)) as [a|]; cbn; [|reflexivity].
  destruct (n_mul N a r) as [b|]; cbn; [|reflexivity].
  destruct (n_add N b (n_sum0 N)) as [a'|]; cbn; [|reflexivity].
  destruct (n_mul N a' r); reflexivity.
Qed.
End One.

Ltac tot := intros ? ? ? ? ? ?; repeat first
  [ apply never_add; assumption | apply never_sub; assumption | apply never_mul; assumption
  | apply dot_total; [assumption|intros ? ?|intros ? ?]
  | apply dot1_total; [lia|assumption|intros ? ?|intros ? ?]
  | eapply cell_total; [eassumption|lia|lia]
  | apply obind_total; [|intros ?] ].

Section Bad.
Context {T : Type} (c : cfg) (N : num T).
Hypothesis Hc : 255 <= usize_max c.
Hypothesis HN : never_panics N.
(** values that arithmetic cannot repair *)
Variable Bad : T -> Prop.
Hypothesis bad_mul_l : forall a b p, Bad a -> o_mul N a b = Some p -> Bad p.
Hypothesis bad_mul_r : forall a b p, Bad b -> o_mul N a b = Some p -> Bad p.
Hypothesis bad_add_r : forall a b p, Bad b -> o_add N a b = Some p -> Bad p.
Hypothesis bad_sub_r : forall a b p, Bad b -> o_sub N a b = Some p -> Bad p.

Lemma cellwise_ok R C (old : list T) g r : valid c R C old -> (never_panics N -> forall i j v, i < R -> j < C -> g i j v <> None) ->
  cellwise R C old g r ->
  exists l, r = Ok l /\ valid c R C l /\ forall i j, i < R -> j < C -> exists v, cell C old i j = Some v /\ cell C l i j = g i j v.
Proof.
  intros V Hg H. destruct r as [l|e]; cbn [cellwise] in H.
  - destruct H as (L & H & _). exists l. split; [reflexivity|]. split; [exact (valid_length c R C old l V L)|].
    intros i j Hi Hj. pose proof (cell_total c R C old i j V Hi Hj) as Hv. destruct (cell C old i j) as [v|] eqn:E; [|congruence].
    exists v. split; [reflexivity|]. apply H; auto.
  - destruct H as (_ & i & j & v & Hi & Hj & _ & Hn). exfalso. exact (Hg HN i j v Hi Hj Hn).
Qed.

Ltac cw L l V C := let H := fresh in pose proof L as H; apply cellwise_ok in H; [destruct H as (l & -> & V & C)|eassumption|tot].

Lemma one_cons (l : list T) : valid c 1 1 l -> exists s tl, l = s :: tl /\ cell 1 l 0 0 = Some s.
Proof. intros [H _]. destruct l as [|s tl]; [cbn in H; lia|]. exists s, tl. auto. Qed.

Lemma dot_ext K : forall f g f' g', (forall k, k < K -> f k = f' k) -> (forall k, k < K -> g k = g' k) -> dot N K f g = dot N K f' g'.
Proof.
  induction K as [|K IH]; intros f g f' g' Hf Hg; cbn [dot]; [reflexivity|].
  rewrite (IH f g f' g'), Hf, Hg; auto.
Qed.

Lemma scalar_destroys n (o : observation T) (f : kalman T) s :
  1 <= n -> ob_valid c n 1 o -> kf_valid c n f ->
  scalar_S N n (ob_H o) (kf_P f) (ob_R o) = Some s ->
  (n_le N s (n_zero N) = true -> forall v r, o_mul N s (n_zero N) = Some v -> o_recip N v = Some r -> Bad r) ->
  (n_le N s (n_zero N) = false -> forall v r, o_sqrt N s = Some v -> o_recip N v = Some r -> Bad r) ->
  exists o' f', correct c N n 1 o f = Ok (o', f') /\
    (forall i, i < n -> exists v, cell 1 (kf_x f') i 0 = Some v /\ Bad v) /\
    (forall i j, i < n -> j < n -> exists v, cell n (kf_P f') i j = Some v /\ Bad v).
Proof.
  intros Hn Ho Hf HS Hle Hgt.
  destruct Ho as (VH & Vz & VR & Vy & VS & VK & VSinv & VHP & VPHt & VKHP).
  destruct Hf as (VA & Vx & VP & VQ & Vpx & VtP).
  unfold correct, obs_correct.
  cw (mult_rowvector_cellwise c N 1 n (ob_H o) (kf_x f) (ob_y o) Hn VH Vx Vy) y1 V1 C_V1.
  cbn [bind].
  cw (sub_inplace_b_cellwise c N 1 1 (ob_z o) y1 Vz V1) y V2 C_V2.
  cbn [bind]. unfold update_with_innovation, set_y. cbn [ob_H ob_z ob_R ob_y ob_S ob_K ob_Sinv ob_HP ob_PHt ob_KHP].
  cw (mult_cellwise c N 1 n n (ob_H o) (kf_P f) (ob_HP o) VH VP VHP) HP V3 C3.
  cbn [bind].
  cw (mult_transb_cellwise c N 1 n 1 HP (ob_H o) (ob_S o) V3 VH VS) S1 V4 C4.
  cbn [bind].
  cw (add_inplace_a_cellwise c N 1 1 S1 (ob_R o) V4 VR) S2 V5 C5.
  cbn [bind].
  (* the value of S *)
  assert (ES : cell 1 S2 0 0 = Some s).
  { destruct (C5 0 0 ltac:(lia) ltac:(lia)) as (v5 & E5 & ->). destruct (C4 0 0 ltac:(lia) ltac:(lia)) as (v4 & _ & E4). rewrite E5 in E4.
    rewrite <- HS. unfold scalar_S.
    assert (E : dot N n (fun k => cell n HP 0 k) (fun k => cell n (ob_H o) 0 k) =
      dot N n (fun k => dot N n (fun l => cell n (ob_H o) 0 l) (fun l => cell n (kf_P f) l k)) (fun k => cell n (ob_H o) 0 k)).
    { apply dot_ext; [|auto]. intros k Hk. destruct (C3 0 k ltac:(lia) Hk) as (v3 & _ & ->). reflexivity. }
    rewrite <- E, <- E4. reflexivity. }
  destruct (one_cons S2 V5) as (s' & tl & -> & ES'). rewrite ES in ES'. injection ES' as <-.
  destruct (one_cons (ob_Sinv o) VSinv) as (w & wtl & EW & _).
  (* decomposition and inverse *)
  assert (EC : exists b v, cholesky_decompose_lower c N 1 1 (s :: tl) = Ok (b, v :: tl) /\ forall r, o_recip N v = Some r -> Bad r).
  { pose proof (chol_one N s tl) as E. unfold n_mul, n_sqrt, n_recip in E. destruct HN as (_ & _ & Hm & _ & Hr & Hs).
    destruct (o_mul N s (n_zero N)) as [v|] eqn:Em; [|destruct (Hm _ _ Em)]. cbn [of_opt bind] in E.
    destruct (n_le N s (n_zero N)) eqn:El.
    - exists false, v. split; [exact (sim_ok _ _ _ (sim_cholesky N tiny c (tiny_stricter c Hc) 1 1 (s :: tl)) E)|]. intros r. apply Hle; auto.
    - destruct (o_sqrt N s) as [q|] eqn:Eq; [|destruct (Hs _ Eq)]. cbn [of_opt bind] in E.
      destruct (o_recip N q) as [d|] eqn:Ed; [|destruct (Hr _ Ed)]. cbn [of_opt bind] in E.
      exists true, q. split; [exact (sim_ok _ _ _ (sim_cholesky N tiny c (tiny_stricter c Hc) 1 1 (s :: tl)) E)|]. intros r. apply Hgt; auto. }
  destruct EC as (b & v & -> & Hbad). cbn [bind].
  assert (VS3 : valid c 1 1 (v :: tl)) by (eapply valid_length; [exact V5|reflexivity]).
  assert (EI : exists si, invert_l_cholesky c N 1 (v :: tl) (ob_Sinv o) = Ok (si :: wtl) /\ Bad si).
  { rewrite EW. pose proof (invert_one N v tl w wtl) as E. unfold n_mul, n_add, n_recip in E. destruct HN as (Ha & _ & Hm & _ & Hr & _).
    destruct (o_recip N v) as [r|] eqn:Er; [|destruct (Hr _ Er)]. cbn [of_opt bind] in E.
    destruct (o_add N (n_one N) (n_sum0 N)) as [a|] eqn:Ea; [|destruct (Ha _ _ Ea)]. cbn [of_opt bind] in E.
    destruct (o_mul N a r) as [p|] eqn:Ep; [|destruct (Hm _ _ Ep)]. cbn [of_opt bind] in E.
    destruct (o_add N p (n_sum0 N)) as [a'|] eqn:Ea'; [|destruct (Ha _ _ Ea')]. cbn [of_opt bind] in E.
    destruct (o_mul N a' r) as [p'|] eqn:Ep'; [|destruct (Hm _ _ Ep')]. cbn [of_opt bind] in E.
    exists p'. split; [exact (sim_ok _ _ _ (sim_invert N tiny c (tiny_stricter c Hc) 1 (v :: tl) (w :: wtl)) E)|].
    exact (bad_mul_r _ _ _ (Hbad r eq_refl) Ep'). }
  destruct EI as (si & -> & Hsi). cbn [bind].
  assert (VSi : valid c 1 1 (si :: wtl)) by (eapply valid_length; [exact VSinv|rewrite EW; reflexivity]).
  cw (mult_transb_cellwise c N n n 1 (kf_P f) (ob_H o) (ob_PHt o) VP VH VPHt) PHt V6 C6.
  cbn [bind].
  cw (mult_cellwise c N n 1 1 PHt (si :: wtl) (ob_K o) V6 VSi VK) K V7 C7.
  cbn [bind].
  assert (HK : forall i, i < n -> exists k, cell 1 K i 0 = Some k /\ Bad k).
  { intros i Hi. destruct (C7 i 0 Hi ltac:(lia)) as (u & _ & E). cbn [dot obind] in E.
    pose proof (cell_total c n 1 K i 0 V7 Hi ltac:(lia)) as Hk. destruct (cell 1 K i 0) as [k|]; [|congruence]. exists k. split; [reflexivity|].
    pose proof (cell_total c n 1 PHt i 0 V6 Hi ltac:(lia)) as Hq. destruct (cell 1 PHt i 0) as [q|]; [|congruence]. cbn in E.
    destruct (o_mul N q si) as [p|] eqn:Ep; [|destruct HN as (_ & _ & Hm & _); destruct (Hm _ _ Ep)]. cbn in E. symmetry in E.
    exact (bad_add_r _ _ _ (bad_mul_r _ _ _ Hsi Ep) E). }
  cw (multadd_rowvector_cellwise c N n 1 K y (kf_x f) ltac:(lia) V7 V2 Vx) x' V8 C8.
  cbn [bind].
  cw (mult_cellwise c N 1 n n (ob_H o) (kf_P f) HP VH VP V3) HP2 V9 C9.
  cbn [bind].
  cw (mult_cellwise c N n 1 n K HP2 (ob_KHP o) V7 V9 VKHP) KHP V10 C10.
  cbn [bind].
  cw (sub_inplace_a_cellwise c N n n (kf_P f) KHP VP V10) P' V11 C11.
  cbn [bind]. eexists. eexists. split; [reflexivity|]. cbn [kf_x kf_P]. split.
  - intros i Hi. destruct (HK i Hi) as (k & Ek & Bk). destruct (C8 i 0 Hi ltac:(lia)) as (u & _ & E). cbn [dot1 obind] in E. rewrite Ek in E. cbn [obind] in E.
    pose proof (cell_total c n 1 x' i 0 V8 Hi ltac:(lia)) as Hx. destruct (cell 1 x' i 0) as [v'|]; [|congruence]. exists v'. split; [reflexivity|].
    destruct (cell 1 y 0 0) as [yv|]; cbn [obind] in E; [|discriminate].
    destruct (o_mul N k yv) as [p|] eqn:Ep; cbn [obind] in E; [|discriminate]. symmetry in E.
    exact (bad_add_r _ _ _ (bad_mul_l _ _ _ Bk Ep) E).
  - intros i j Hi Hj. destruct (HK i Hi) as (k & Ek & Bk).
    assert (HKHP : exists w', cell n KHP i j = Some w' /\ Bad w').
    { destruct (C10 i j Hi Hj) as (u & _ & E). cbn [dot obind] in E. rewrite Ek in E. cbn [obind] in E.
      pose proof (cell_total c n n KHP i j V10 Hi Hj) as Hx. destruct (cell n KHP i j) as [w'|]; [|congruence]. exists w'. split; [reflexivity|].
      destruct (cell n HP2 0 j) as [h|]; cbn [obind] in E; [|discriminate].
      destruct (o_mul N k h) as [p|] eqn:Ep; cbn [obind] in E; [|discriminate]. symmetry in E.
      exact (bad_add_r _ _ _ (bad_mul_l _ _ _ Bk Ep) E). }
    destruct HKHP as (w' & Ew & Bw). destruct (C11 i j Hi Hj) as (u & _ & E). rewrite Ew in E. cbn [obind] in E.
    pose proof (cell_total c n n P' i j V11 Hi Hj) as Hx. destruct (cell n P' i j) as [v'|]; [|congruence]. exists v'. split; [reflexivity|]. symmetry in E.
    exact (bad_sub_r _ _ _ Bw E).
Qed.
End Bad.

Section Floats.
Variables (c : cfg) (prec emax : Z) (sz : bool).
Notation N := (sf_num prec emax sz).
Lemma sf_never_panics : never_panics N.
Proof. repeat split; cbn; discriminate. Qed.
Lemma sf_mul_bad a b : sf_finite a = false \/ sf_finite b = false -> sf_finite (SFmul prec emax a b) = false.
Proof. destruct a, b; cbn; intros [H|H]; try discriminate H; reflexivity. Qed.
Lemma sf_add_bad a b : sf_finite b = false -> sf_finite (SFadd prec emax a b) = false.
Proof. destruct a, b; cbn; intros H; try discriminate H; try reflexivity. destruct (Bool.eqb s s0); reflexivity. Qed.
Lemma sf_sub_bad a b : sf_finite b = false -> sf_finite (SFsub prec emax a b) = false.
Proof. destruct a, b; cbn; intros H; try discriminate H; try reflexivity. destruct (Bool.eqb s (negb s0)); reflexivity. Qed.

Theorem sf_scalar_destroys n (o : observation spec_float) (f : kalman spec_float) s : 255 <= usize_max c ->
  1 <= n -> ob_valid c n 1 o -> kf_valid c n f ->
  scalar_S N n (ob_H o) (kf_P f) (ob_R o) = Some s -> sf_pos s = false ->
  exists o' f', correct c N n 1 o f = Ok (o', f') /\
    (forall i, i < n -> exists v, cell 1 (kf_x f') i 0 = Some v /\ sf_finite v = false) /\
    (forall i j, i < n -> j < n -> exists v, cell n (kf_P f') i j = Some v /\ sf_finite v = false).
Proof.
  intros Hc Hn Ho Hf HS Hs.
  refine (scalar_destroys c N Hc sf_never_panics (fun x => sf_finite x = false) _ _ _ _ n o f s Hn Ho Hf HS _ _).
  - intros a b p Ha E. injection E as <-. apply sf_mul_bad; auto.
  - intros a b p Ha E. injection E as <-. apply sf_mul_bad; auto.
  - intros a b p Ha E. injection E as <-. apply sf_add_bad; auto.
  - intros a b p Ha E. injection E as <-. apply sf_sub_bad; auto.
  - intros Hle v r Ev Er. injection Ev as <-. injection Er as <-. destruct s; try reflexivity; discriminate Hle.
  - intros Hle v r Ev Er. injection Ev as <-. injection Er as <-. destruct s as [| | |[|] ? ?]; try reflexivity; try discriminate Hle; try discriminate Hs. destruct s; [discriminate Hle|discriminate Hs].
Qed.
End Floats.
