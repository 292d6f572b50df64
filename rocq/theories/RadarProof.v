(** * examples/radar_2d.rs runs to the end *)
From Coq Require Import ZArith List Lia.
From Verif Require Import Prelude Numeric Matrix Storage Filter Extended Builder Spec SpecFilter SpecGen SpecStore Wp Kernels Access FilterGen FilterTwo StoreProof StoreExamples Radar.
Import ListNotations.

Section Run.
Context {T : Type} (c : cfg) (M : maths T).
Notation N := (ma_num M).
Notation NP := (arith_only N).

Lemma add_wp a b : wp (n_add N a b) (fun _ => True) NP.
Proof. unfold n_add, of_opt. destruct (o_add N a b) eqn:E; cbn; [exact I|]. split; [reflexivity|]. intros H. apply (proj1 H a b), E. Qed.
Lemma sub_wp a b : wp (n_sub N a b) (fun _ => True) NP.
Proof. unfold n_sub, of_opt. destruct (o_sub N a b) eqn:E; cbn; [exact I|]. split; [reflexivity|]. intros H. apply (proj1 (proj2 H) a b), E. Qed.
Lemma mul_wp a b : wp (n_mul N a b) (fun _ => True) NP.
Proof. unfold n_mul, of_opt. destruct (o_mul N a b) eqn:E; cbn; [exact I|]. split; [reflexivity|]. intros H. apply (proj1 (proj2 (proj2 H)) a b), E. Qed.
Lemma neg_wp a : wp (n_neg N a) (fun _ => True) NP.
Proof. unfold n_neg, of_opt. destruct (o_neg N a) eqn:E; cbn; [exact I|]. split; [reflexivity|]. intros H. apply (proj1 (proj2 (proj2 (proj2 H))) a), E. Qed.
Lemma set_wp R C (m : list T) i j v : valid c R C m -> i < R -> j < C -> wp (set_at c C m i j v) (valid c R C) NP.
Proof. intros H Hi Hj. rewrite (set_at_cell c R) by auto. destruct H as [H1 H2]. split; [|red]; rewrite length_upd; assumption. Qed.
Lemma get_wp R C (m : list T) i j : valid c R C m -> i < R -> j < C -> wp (get_at c C m i j) (fun _ => True) NP.
Proof. intros H Hi Hj. destruct (get_at_cell c R C m i j H Hi Hj) as (v & _ & ->). exact I. Qed.
Lemma iget_wp R (m : list T) i : valid c R 1 m -> i < R -> wp (index_get m i) (fun _ => True) NP.
Proof. intros [H _] Hi. unfold index_get. destruct (rd_some m i) as (v & _ & E); [lia|]. rewrite E. exact I. Qed.
Lemma iset_wp R (m : list T) i v : valid c R 1 m -> i < R -> wp (index_set m i v) (valid c R 1) NP.
Proof. intros [H H2] Hi. unfold index_set. rewrite wr_ok by lia. split; [|red]; rewrite length_upd; assumption. Qed.

Ltac op := first [apply add_wp | apply sub_wp | apply mul_wp | apply neg_wp | eapply (get_wp 4 1); [eassumption|lia|lia] | eapply (iget_wp 4); [eassumption|lia] ].
Ltac ops := repeat (apply wp_bind; eapply wp_mono; [op|intros ? _; cbv beta|intros ? X; exact X]).
Ltac put R C := apply wp_bind; eapply wp_mono; [apply (set_wp R C); [assumption|lia|lia]|intros ? ?; cbv beta|intros ? X; exact X].
Ltac iput R := apply wp_bind; eapply wp_mono; [apply (iset_wp R); [assumption|lia]|intros ? ?; cbv beta|intros ? X; exact X].
Ltac go := ops; repeat first [put 4 1; ops | put 3 1; ops | put 3 3; ops | put 3 4; ops | put 4 4; ops | iput 4; ops].

Lemma initial_wp x : valid c 4 1 x -> wp (radar_initial_state c M x) (valid c 4 1) NP.
Proof. intros H. unfold radar_initial_state, set_row. go. apply (set_wp 4 1); [assumption|lia|lia]. Qed.
Lemma covariance_wp r : valid c 3 3 r -> wp (radar_noise_covariance c M r) (valid c 3 3) NP.
Proof. intros H. unfold radar_noise_covariance. go. apply (set_wp 3 3); [assumption|lia|lia]. Qed.
Lemma comatrix_wp n (d o : T) (m : list T) : valid c n n m -> wp (make_comatrix c n d o m) (valid c n n) NP.
Proof.
  intros H. pose proof (make_comatrix_cellwise c n d o m H) as Hc. assert (W : wp (make_comatrix c n d o m) (okm c n n m) NP) by (eapply cellwise_wp; [exact H| |exact Hc]; cbv beta; intros; discriminate).
  eapply wp_mono; [exact W| |intros ? X; exact X]. intros l Hl. exact (proj1 Hl).
Qed.
Lemma jacobian_wp m : valid c 4 4 m -> wp (radar_transition_jacobian c M m) (valid c 4 4) NP.
Proof.
  intros H. unfold radar_transition_jacobian, make_identity. apply wp_bind. eapply wp_mono; [apply comatrix_wp, H| |intros ? X; exact X].
  intros l Hl. cbv beta. go. apply (set_wp 4 4); [assumption|lia|lia].
Qed.
Lemma transition_ok : closure_ok c N 4 4 (radar_transition M).
Proof. intros x out Hx Ho. unfold radar_transition. go. apply (iset_wp 4); [assumption|lia]. Qed.
Lemma observe_ok : closure_ok c N 3 4 (radar_observe c M).
Proof. intros x out Hx Ho. unfold radar_observe, get_row, set_row. cbv zeta. go. apply (set_wp 3 1); [assumption|lia|lia]. Qed.
Lemma measure_wp t e z : valid c 3 1 z -> wp (radar_measure c M t e z) (valid c 3 1) NP.
Proof. intros Hz. destruct e as [[a b] d]. unfold radar_measure, set_row. cbv zeta. go. apply (set_wp 3 1); [assumption|lia|lia]. Qed.
Lemma ojacobian_wp x m : valid c 4 1 x -> valid c 3 4 m -> wp (radar_observation_jacobian c M x m) (valid c 3 4) NP.
Proof. intros Hx Hm. unfold radar_observation_jacobian, get_row. cbv zeta. go. apply (set_wp 3 4); [assumption|lia|lia]. Qed.

Lemma turn_wp noise step f o : kf_valid c 4 f -> ob_valid c 4 3 o ->
  wp (radar_turn c M noise step (f, o)) (fun s => kf_valid c 4 (fst s) /\ ob_valid c 4 3 (snd s) /\ kf_Q (fst s) = kf_Q f /\ ob_R (snd s) = ob_R o) NP.
Proof.
  intros Vf Vo. unfold radar_turn. ops.
  pose proof Vf as (vA & vx & vP & vQ & vpx & vtP).
  apply wp_bind. eapply wp_mono; [apply jacobian_wp, vA| |intros ? X; exact X]. intros a' Va. cbv beta zeta.
  apply wp_bind. eapply wp_mono; [apply predict_nonlinear_wp; [lia| |exact transition_ok]| |intros ? X; exact X].
  { unfold kf_valid; cbn. tauto. }
  intros g (Vg & Mg & _). cbv beta. destruct Mg as [_ Qg]. cbn [kf_Q] in Qg.
  destruct (Nat.eqb _ 0).
  - pose proof Vg as (gA & gx & _). pose proof Vo as (vH & vz & vR & _).
    apply wp_bind. eapply wp_mono; [apply measure_wp, vz| |intros ? X; exact X]. intros z Vz. cbv beta.
    apply wp_bind. eapply wp_mono; [apply ojacobian_wp; eassumption| |intros ? X; exact X]. intros h Vh. cbv beta.
    apply wp_bind. eapply wp_mono; [apply correct_nonlinear_wp; [lia|lia| |exact Vg|exact observe_ok]| |intros ? X; exact X].
    { unfold ob_valid in *; cbn. tauto. }
    intros [o' f'] (Vo' & So & Vf' & Mf & _). cbn. destruct Mf as [_ Qf]. destruct So as (_ & _ & SR). cbn in SR. split; [exact Vf'|]. split; [exact Vo'|]. split; congruence.
  - cbn. split; [exact Vg|]. split; [exact Vo|]. split; [congruence|reflexivity].
Qed.

Hypothesis Hc : 255 <= usize_max c.

Lemma setup_wp : wp (radar_setup c M) (fun s => kf_valid c 4 (fst s) /\ ob_valid c 4 3 (snd s)) NP.
Proof.
  unfold radar_setup.
  destruct (build_filter_ok c (n_zero N) 4 (small_alloc c 16 Hc ltac:(lia))) as (f & E & Ff). rewrite E. cbn [bind].
  destruct (build_observation_ok c (n_zero N) 4 3 (small_alloc c 16 Hc ltac:(lia)) (small_alloc c 12 Hc ltac:(lia)) (small_alloc c 9 Hc ltac:(lia))) as (o & E2 & Fo). rewrite E2. cbn [bind].
  pose proof (kf_fresh_valid c (n_zero N) 4 f (small_alloc c 16 Hc ltac:(lia)) Ff) as Vf.
  pose proof (ob_fresh_valid c (n_zero N) 4 3 o (small_alloc c 16 Hc ltac:(lia)) (small_alloc c 12 Hc ltac:(lia)) (small_alloc c 9 Hc ltac:(lia)) Fo) as Vo.
  pose proof Vf as (vA & vx & vP & vQ & vpx & vtP). pose proof Vo as (vH & vz & vR & _).
  apply wp_bind. eapply wp_mono; [apply initial_wp, vx| |intros ? X; exact X]. intros x Vx. cbv beta.
  apply wp_bind. eapply wp_mono; [apply comatrix_wp, vP| |intros ? X; exact X]. intros p Vp. cbv beta.
  apply wp_bind. eapply wp_mono; [apply comatrix_wp, vQ| |intros ? X; exact X]. intros q Vq. cbv beta.
  apply wp_bind. eapply wp_mono; [apply covariance_wp, vR| |intros ? X; exact X]. intros r Vr. cbv beta.
  cbn. unfold kf_valid, ob_valid in *; cbn. tauto.
Qed.

Lemma main_wp steps noise : wp (radar_main c M steps noise)
  (fun s => kf_valid c 4 (fst s) /\ ob_valid c 4 3 (snd s) /\ exists s0, radar_setup c M = Ok s0 /\ kf_Q (fst s) = kf_Q (fst s0) /\ ob_R (snd s) = ob_R (snd s0)) NP.
Proof.
  unfold radar_main. pose proof setup_wp as W. destruct (radar_setup c M) as [s0|e]; cbn [bind]; [|exact W]. destruct s0 as [f0 o0]. destruct W as [Vf Vo]. cbn [fst snd] in *.
  eapply wp_mono; [apply (wp_for_range 1 (S steps) _ _ (fun _ s => kf_valid c 4 (fst s) /\ ob_valid c 4 3 (snd s) /\ kf_Q (fst s) = kf_Q f0 /\ ob_R (snd s) = ob_R o0) NP); [lia| |]| |intros ? X; exact X].
  - cbn. tauto.
  - intros i [f o] _ (Vf' & Vo' & Eq & Er). cbn [fst snd] in *. eapply wp_mono; [apply turn_wp; assumption| |intros ? X; exact X].
    intros [f' o'] (A & B & D & E). cbn [fst snd] in *. split; [exact A|]. split; [exact B|]. split; congruence.
  - intros [f o] (A & B & D & E). split; [exact A|]. split; [exact B|]. exists (f0, o0). cbn [fst snd] in *. auto.
Qed.
Lemma main_runs steps noise : never_panics N -> exists f o s0, radar_main c M steps noise = Ok (f, o) /\ kf_valid c 4 f /\ ob_valid c 4 3 o /\
  radar_setup c M = Ok s0 /\ kf_Q f = kf_Q (fst s0) /\ ob_R o = ob_R (snd s0).
Proof.
  intros H. pose proof (main_wp steps noise) as W. destruct (radar_main c M steps noise) as [[f o]|e]; cbn in W.
  - destruct W as (A & B & s0 & D). exists f, o, s0. tauto.
  - exfalso. apply (proj2 W), H.
Qed.
End Run.
