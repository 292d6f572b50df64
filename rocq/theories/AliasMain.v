(** * Shared temporaries: main statements, witnesses, examples *)
From Coq Require Import Lia.
From Verif Require Import Spec Matrix Filter Extended SpecFilter Wp FilterGen FilterTwo History SpecGen HistTwo Alias SpecAlias AliasProof
  BuildSim FloatNum SpecFloats FloatWit ExampleData.

Section Main.
Context {T : Type} (c : cfg) (N : num T).

Lemma world_rel_refl n (w : world T) : world_valid c n w -> world_rel c n w w.
Proof.
  intros (Hf & Hc & Ho).
  assert (SM : forall R C (l : list T), same_matrix R C l l) by (intros R C l p Hp; reflexivity).
  split; [split; [exact Hf|split; [exact Hf|repeat split]]|]. split.
  - induction Hc as [|[m k] l Hk _ IH]; [apply Forall2_nil|]. apply Forall2_cons; [|exact IH]. split; [reflexivity|].
    split; [exact Hk|split; [exact Hk|repeat split]].
  - induction Ho as [|[m k] l Hk _ IH]; [apply Forall2_nil|]. apply Forall2_cons; [|exact IH]. split; [reflexivity|].
    split; [exact Hk|split; [exact Hk|repeat split]].
Qed.

Lemma shared_program n L (w : world T) mem os :
  world_ok c n w -> slice_ok c mem -> layout_ok (length mem) n (ct_dims w) (ob_dims w) L ->
  Forall (fun o => op_same c n (ob_dims w) o o) os ->
  rres (fun s w' => world_rel c n (fst s) w') (run_shared c N n L (w, mem) os) (run c N n w os).
Proof.
  intros (Hn & Hv & Hd) Hs HL Ho. eapply Access.rres_mono; [apply (run_shared_two c N n L (length mem)); auto using world_rel_refl|].
  - induction Ho; [apply Forall2_nil|apply Forall2_cons; auto].
  - intros s w' [H _]. exact H.
Qed.

Lemma shared_call n m L (o : observation T) (f : kalman T) mem : 1 <= n -> 1 <= m ->
  ob_valid c n m o -> kf_valid c n f -> slice_ok c mem -> obs_layout_ok (length mem) n m L ->
  rres (fun r1 r2 => let '(o1, f1, _) := r1 in let '(o2, f2) := r2 in
      same_matrix n 1 (kf_x f1) (kf_x f2) /\ same_matrix n n (kf_P f1) (kf_P f2) /\
      same_matrix n m (ob_K o1) (ob_K o2) /\ same_matrix m 1 (ob_y o1) (ob_y o2))
    (correct_shared c N n m L o f mem) (correct c N n m o f).
Proof.
  intros Hn Hm Ho Hf Hs HL.
  assert (SM : forall R C (l : list T), same_matrix R C l l) by (intros R C l p Hp; reflexivity).
  eapply Access.rres_mono.
  - apply (correct_shared_two c N n m L o o f f mem); auto; (split; [assumption|split; [assumption|repeat split]]).
  - intros [[o1 f1] mem'] [o2 f2] (_ & (_ & _ & H1 & H2 & H3 & _) & H4 & H5 & _). auto.
Qed.
End Main.

Section Sim.
Context {T : Type} (N : num T) (c1 c2 : cfg).
Hypothesis Hc : stricter c1 c2.
Lemma sim_mult_shared M K U (a : list T) rb rc mem : sim (mult_shared c1 N M K U a rb rc mem) (mult_shared c2 N M K U a rb rc mem).
Proof.
  unfold mult_shared. apply sim_for_down; intros j l. apply sim_bind; [|intros [ia l']; apply sim_refl].
  apply sim_for_range; intros i [ia l']. apply sim_bind.
  - apply sim_for_range; intros k [ib t]. apply sim_bind; [apply sim_refl|]. intros. apply sim_bind; [apply sim_umul, Hc|]. intros.
    apply sim_bind; [apply sim_uadd, Hc|]. intros. apply sim_bind; [apply sim_refl|]. intros. apply sim_bind; [apply sim_refl|]. intros.
    apply sim_bind; [apply sim_refl|]. intros. apply sim_bind; [apply sim_uadd, Hc|]. intros. apply sim_refl.
  - intros [ib t]. apply sim_bind; [apply sim_umul, Hc|]. intros. apply sim_bind; [apply sim_uadd, Hc|]. intros.
    apply sim_bind; [apply sim_refl|]. intros. apply sim_refl.
Qed.
Lemma sim_correct_shared n m L (o : observation T) f mem : sim (correct_shared c1 N n m L o f mem) (correct_shared c2 N n m L o f mem).
Proof.
  unfold correct_shared, update_shared. apply sim_bind; [apply sim_gen_mult_rowvector, Hc|]. intros y.
  apply sim_bind; [apply sim_sub_inplace_b, Hc|]. intros y'. apply sim_bind; [|intros [[[? ?] ?] ?]; apply sim_refl].
  apply sim_bind; [apply sim_mult, Hc|]. intros. apply sim_bind; [apply sim_gen_mult_transb, Hc|]. intros. 
  apply sim_bind; [apply sim_add_inplace_a, Hc|]. intros. apply sim_bind; [apply sim_cholesky, Hc|]. intros [? ?].
  apply sim_bind; [apply sim_invert, Hc|]. intros. apply sim_bind; [apply sim_gen_mult_transb, Hc|]. intros.
  apply sim_bind; [apply sim_mult, Hc|]. intros. apply sim_bind; [apply sim_gen_mult_rowvector, Hc|]. intros.
  apply sim_bind; [apply sim_mult, Hc|]. intros. apply sim_bind; [apply sim_mult_shared|]. intros.
  apply sim_bind; [apply sim_sub_inplace_a, Hc|]. intros. apply sim_refl.
Qed.
End Sim.

Section Wit.
Variables (c : cfg) (sz : bool).
Hypothesis Hc : 255 <= usize_max c.
Notation z0 := (S754_zero false).
Lemma correct_shared_tiny N n m L (o : observation spec_float) f mem r : correct_shared tiny N n m L o f mem = Ok r -> correct_shared c N n m L o f mem = Ok r.
Proof. apply sim_ok, sim_correct_shared, tiny_stricter, Hc. Qed.
Lemma slice_tiny {T} (l : list T) : Nat.leb (length l) 100 = true -> slice_ok c l.
Proof. intros H. apply (valid_tiny c 0 0 l Hc); auto. Qed.

(** S_inv on top of PHt, everything else apart: one state, P = 2, R = 2, x = 2, z = 1 *)
Definition lay_a : oregions := mk_oregions (0, 1) (1, 1) (0, 1) (2, 1).
Lemma Sinv_PHt_harmful : exists L o f mem o1 f1 mem1 o2 f2,
  kf_valid c 1 f /\ ob_valid c 1 1 o /\ slice_ok c mem /\
  fits (length mem) (1 * 1) (r_Sinv L) /\ fits (length mem) (1 * 1) (r_HP L) /\ fits (length mem) (1 * 1) (r_PHt L) /\ fits (length mem) (1 * 1) (r_KHP L) /\
  apart (r_HP L) (r_KHP L) /\ r_Sinv L = r_PHt L /\
  correct_shared c (f32_num sz) 1 1 L o f mem = Ok (o1, f1, mem1) /\ correct c (f32_num sz) 1 1 o f = Ok (o2, f2) /\
  kf_x f1 <> kf_x f2 /\ kf_P f1 <> kf_P f2 /\ all_finite (kf_x f2) /\ all_finite (kf_P f2).
Proof.
  assert (E : exists o1 f1 mem1 o2 f2,
    correct_shared tiny (f32_num sz) 1 1 lay_a (ob1 (f32 1 0) (f32 2 0)) (kf1 (f32 1 0) (f32 2 0) (f32 2 0)) [z0; z0; z0] = Ok (o1, f1, mem1) /\
    correct tiny (f32_num sz) 1 1 (ob1 (f32 1 0) (f32 2 0)) (kf1 (f32 1 0) (f32 2 0) (f32 2 0)) = Ok (o2, f2) /\
    kf_x f1 <> kf_x f2 /\ kf_P f1 <> kf_P f2 /\ all_finite (kf_x f2) /\ all_finite (kf_P f2)).
  { destruct sz; do 5 eexists; (split; [vm_compute; reflexivity|]); (split; [vm_compute; reflexivity|]);
      (split; [vm_compute; discriminate|]); (split; [vm_compute; discriminate|]); split; vm_compute; reflexivity. }
  destruct E as (o1 & f1 & mem1 & o2 & f2 & E1 & E2 & R). apply correct_shared_tiny in E1. apply (correct_tiny c Hc) in E2.
  exists lay_a, (ob1 (f32 1 0) (f32 2 0)), (kf1 (f32 1 0) (f32 2 0) (f32 2 0)), [z0; z0; z0], o1, f1, mem1, o2, f2.
  split; [apply kf1_valid, Hc|]. split; [apply ob1_valid, Hc|]. split; [apply slice_tiny; reflexivity|].
  unfold fits, apart. cbn. repeat (split; [lia|]). split; [reflexivity|]. split; [exact E1|]. split; [exact E2|]. exact R.
Qed.

(** HP on top of KHP, everything else apart: two states, the first one measured *)
Definition lay_b : oregions := mk_oregions (0, 1) (1, 4) (5, 2) (1, 4).
Definition kf2b : kalman spec_float := mk_kalman [f32 1 0; z0; z0; f32 1 0] [f32 2 0; z0] [f32 2 0; f32 1 0; f32 1 0; f32 2 0] [z0; z0; z0; z0] [z0; z0] [z0; z0; z0; z0].
Definition ob2b : observation spec_float := mk_obs [f32 1 0; z0] [f32 1 0] [f32 2 0] [z0] [z0] [z0; z0] [z0] [z0; z0] [z0; z0] [z0; z0; z0; z0].
Lemma HP_KHP_harmful : exists L o f mem o1 f1 mem1 o2 f2,
  kf_valid c 2 f /\ ob_valid c 2 1 o /\ slice_ok c mem /\
  fits (length mem) (1 * 1) (r_Sinv L) /\ fits (length mem) (1 * 2) (r_HP L) /\ fits (length mem) (2 * 1) (r_PHt L) /\ fits (length mem) (2 * 2) (r_KHP L) /\
  apart (r_Sinv L) (r_PHt L) /\ r_HP L = r_KHP L /\
  correct_shared c (f32_num sz) 2 1 L o f mem = Ok (o1, f1, mem1) /\ correct c (f32_num sz) 2 1 o f = Ok (o2, f2) /\
  kf_P f1 <> kf_P f2 /\ all_finite (kf_P f1) /\ all_finite (kf_P f2).
Proof.
  assert (E : exists o1 f1 mem1 o2 f2,
    correct_shared tiny (f32_num sz) 2 1 lay_b ob2b kf2b [z0; z0; z0; z0; z0; z0; z0] = Ok (o1, f1, mem1) /\
    correct tiny (f32_num sz) 2 1 ob2b kf2b = Ok (o2, f2) /\
    kf_P f1 <> kf_P f2 /\ all_finite (kf_P f1) /\ all_finite (kf_P f2)).
  { destruct sz; do 5 eexists; (split; [vm_compute; reflexivity|]); (split; [vm_compute; reflexivity|]);
      (split; [vm_compute; discriminate|]); split; vm_compute; reflexivity. }
  destruct E as (o1 & f1 & mem1 & o2 & f2 & E1 & E2 & R). apply correct_shared_tiny in E1. apply (correct_tiny c Hc) in E2.
  exists lay_b, ob2b, kf2b, [z0; z0; z0; z0; z0; z0; z0], o1, f1, mem1, o2, f2.
  split; [red; vt Hc|]. split; [red; vt Hc|]. split; [apply slice_tiny; reflexivity|].
  unfold fits, apart. cbn. repeat (split; [lia|]). split; [reflexivity|]. split; [exact E1|]. split; [exact E2|]. exact R.
Qed.
End Wit.

(** the most crowded permitted layout: everything starts at the same place except PHt, KHP of the second observation *)
Definition lay_ex : layout := mk_layout (0, 4) (fun _ => (0, 2))
  (fun j => match j with 0 => mk_oregions (0, 1) (4, 2) (4, 2) (0, 4) | _ => mk_oregions (0, 4) (0, 4) (4, 4) (4, 4) end).
Lemma ex_layout : exists (w : world Z) (mem : list Z) L, world_ok cfg64 2 w /\ slice_ok cfg64 mem /\
  layout_ok (length mem) 2 (ct_dims w) (ob_dims w) L /\ ob_dims w = [1; 2] /\
  l_P L = (0, 4) /\ l_BQ L 0 = (0, 2) /\ r_HP (l_ob L 0) = r_PHt (l_ob L 0) /\ r_Sinv (l_ob L 1) = r_HP (l_ob L 1) /\ r_PHt (l_ob L 1) = r_KHP (l_ob L 1).
Proof.
  exists (ex_world 0 1 3 2 5)%Z, [7; 7; 7; 7; 7; 7; 7; 7]%Z, lay_ex. split; [apply ex_world_ok|].
  split; [apply (valid64 0 0); reflexivity|]. split; [|repeat split].
  split; [unfold fits; cbn; lia|]. split.
  - intros [|i] m E; cbn in E; [injection E as <-|destruct i; discriminate E]. unfold fits; cbn; lia.
  - intros [|[|j]] m E; cbn in E; [injection E as <-|injection E as <-|destruct j; discriminate E];
      unfold obs_layout_ok, fits, apart; cbn; lia.
Qed.
