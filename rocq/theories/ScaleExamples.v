(** * Concrete cases for C130 (f32) *)
From Coq Require Import Lia ZArith Reals Bool List Floats.SpecFloat Lra.
From Flocq Require Import Core.
From Verif Require Import Prelude Numeric FloatNum Matrix Filter Extended Spec SpecFilter History SpecGen SpecBits SpecFloats SpecReal SpecMute SpecScale BuildSim NumSim FloatWit SpecRest MuteExamples ScaleHist.
Import ListNotations.
Local Open Scope nat_scope.

Definition tpb (e : Z) (v v' : spec_float) : bool :=
  valid_binary 24 128 v && valid_binary 24 128 v' &&
  match v, v' with
  | S754_zero _, S754_zero _ => true
  | S754_finite s m x, S754_finite s' m' x' => Bool.eqb s s' && (m =? m')%positive && (x' =? x + e)%Z
  | _, _ => false
  end.
Lemma tpb_ok e v v' : tpb e v v' = true -> times_pow2 24 128 e v v'.
Proof.
  unfold tpb. rewrite !andb_true_iff. intros [[A B] H]. destruct v as [s|s| |s m x]; destruct v' as [s'|s'| |s' m' x']; try discriminate; (split; [exact A|]; split; [exact B|]; split; [reflexivity|]; split; [reflexivity|]); cbn.
  - rewrite Rmult_0_r. reflexivity.
  - rewrite !andb_true_iff in H. destruct H as [[H1 H2] H3]. apply Bool.eqb_prop in H1. apply Pos.eqb_eq in H2. apply Z.eqb_eq in H3. subst.
    unfold F2R. cbn [Fnum Fexp]. rewrite bpow_plus. ring.
Qed.
Lemma scaled_ok R C (e : nat -> nat -> Z) l l' :
  forallb (fun i => forallb (fun j => match cell C l i j, cell C l' i j with Some v, Some v' => tpb (e i j) v v' | _, _ => false end) (seq 0 C)) (seq 0 R) = true -> scaled 24 128 R C e l l'.
Proof.
  intros H i j v v' Hi Hj E E'. rewrite forallb_forall in H. specialize (H i). rewrite in_seq in H. specialize (H ltac:(lia)). rewrite forallb_forall in H. specialize (H j). rewrite in_seq in H. specialize (H ltac:(lia)).
  rewrite E, E' in H. apply tpb_ok, H.
Qed.

(** position and speed; a push, a reading of the position.  Units: position * 2^10, speed * 2^-3, push * 2^2, reading * 2^5 *)
Definition sc_units : units := {| u_x := fun i => match i with 0 => 10%Z | _ => (-3)%Z end; u_c := fun _ _ => 2%Z; u_o := fun _ _ => 5%Z |}.
Definition sc_world (a b e f : Z) : world spec_float := mk_world
  (mk_kalman [f32 1 0; f32 1 (a - b); z0; f32 1 0] [f32 3 a; f32 1 (b - 1)] [f32 5 (a + a); f32 1 (a + b); f32 1 (a + b); f32 3 (b + b)] [f32 1 (a + a - 4); z0; z0; f32 1 (b + b - 4)] [z0;z0] [z0;z0;z0;z0])
  [(1, mk_ctl [f32 1 (a - e - 1); f32 1 (b - e)] [f32 3 e] [f32 1 (e + e - 6)] [z0;z0])]
  [(1, mk_obs [f32 1 (f - a); z0] [f32 7 f] [f32 1 (f + f - 2)] [z0] [z0] [z0;z0] [z0] [z0;z0] [z0;z0] [z0;z0;z0;z0])].
Definition sc_ops (f : Z) : list (op spec_float) := [OPredict; OControl 0; OCorrect 0; OSetZ 0 [f32 9 f]; OPredict].
Definition sw := Eval vm_compute in sc_world 0 0 0 0.
Definition sw' := Eval vm_compute in sc_world 10 (-3) 2 5.
Definition so := Eval vm_compute in sc_ops 0.
Definition so' := Eval vm_compute in sc_ops 5.
Notation NR := (sf_roomy 24 128 true).
Definition out (w : world spec_float) os := match run tiny NR 2 w os with Ok w1 => w1 | Panic _ => w end.
Definition sw1 := Eval vm_compute in out sw so.
Definition sw1' := Eval vm_compute in out sw' so'.

Ltac sc := apply scaled_ok; vm_compute; reflexivity.
Lemma sc_worlds : world_scaled 24 128 2 sc_units sw sw'.
Proof.
  split; [split; [|split; [|split]]; sc|]. split; [reflexivity|]. split; [reflexivity|]. split.
  - intros [|i] m m' k k' E E'; [|destruct i; discriminate]. cbn in E, E'. injection E as <- <-. injection E' as <- <-. split; [lia|]. split; [reflexivity|]. split; [|split]; sc.
  - intros [|i] m m' k k' E E'; [|destruct i; discriminate]. cbn in E, E'. injection E as <- <-. injection E' as <- <-. split; [reflexivity|]. split; [|split]; sc.
Qed.
Lemma sc_opss : Forall2 (op_scaled 24 128 2 sc_units (ct_dims sw) (ob_dims sw)) so so'.
Proof.
  repeat (apply Forall2_cons || apply Forall2_nil); cbn [op_scaled]; try exact I; try reflexivity.
  split; [reflexivity|]. intros m E. injection E as <-. split; [reflexivity|]. sc.
Qed.
Ltac fa := repeat (apply Forall_cons || apply Forall_nil).
Ltac wok Hc := split; [lia|]; split; [split; [red; vt Hc|]; split; fa; red; cbn [fst snd]; vt Hc|cbn; fa; lia].
Lemma sc_ok (c : cfg) (w : world spec_float) (Hc : 255 <= usize_max c) : w = sw \/ w = sw' -> world_ok c 2 w.
Proof.
  intros [-> | ->]; wok Hc.
Qed.
Lemma sc_dec (c : cfg) : 255 <= usize_max c -> all_decomposed c NR 2 sw so.
Proof.
  intros Hc.
  assert (ST : forall w o w1, step tiny NR 2 w o = Ok w1 -> step c NR 2 w o = Ok w1) by (intros w o w1; apply sim_ok, sim_step_, tiny_stricter, Hc).
  unfold so. cbn [all_decomposed].
  intros w1 E. erewrite ST in E by (vm_compute; reflexivity). injection E as <-. split; [exact I|].
  intros w1 E. erewrite ST in E by (vm_compute; reflexivity). injection E as <-. split; [exact I|].
  intros w1 E. erewrite ST in E by (vm_compute; reflexivity). injection E as <-. split.
  { cbn [w_ob nth_error]. split.
    - intros i Hi. destruct i as [|i]; [|exfalso; lia]. do 3 eexists. split; [vm_compute; reflexivity|]. split; [vm_compute; reflexivity|]. split; [vm_compute; reflexivity|].
      split; [vm_compute; reflexivity|]. split; [vm_compute; reflexivity|]. intros j Hj. exfalso. lia.
    - intros i j Hj. exfalso. lia. }
  intros w1 E. erewrite ST in E by (vm_compute; reflexivity). injection E as <-. split; [exact I|].
  intros w1 E. erewrite ST in E by (vm_compute; reflexivity). injection E as <-. split; [exact I|]. exact I.
Qed.
Lemma scale_ex (c : cfg) : 255 <= usize_max c ->
  world_ok c 2 sw /\ world_ok c 2 sw' /\ world_scaled 24 128 2 sc_units sw sw' /\
  Forall (op_safe c NR 2 (ob_dims sw)) so /\ Forall (op_safe c NR 2 (ob_dims sw')) so' /\
  Forall2 (op_scaled 24 128 2 sc_units (ct_dims sw) (ob_dims sw)) so so' /\
  run c NR 2 sw so = Ok sw1 /\ run c NR 2 sw' so' = Ok sw1' /\ all_decomposed c NR 2 sw so /\
  kf_x (w_kf sw1) <> kf_x (w_kf sw) /\ kf_x (w_kf sw1') <> kf_x (w_kf sw1).
Proof.
  intros Hc. split; [apply sc_ok; auto|]. split; [apply sc_ok; auto|]. split; [exact sc_worlds|]. split; [repeat constructor|]. split; [repeat constructor|]. split; [exact sc_opss|].
  split; [eapply sim_ok; [apply sim_run, tiny_stricter, Hc|vm_compute; reflexivity]|]. split; [eapply sim_ok; [apply sim_run, tiny_stricter, Hc|vm_compute; reflexivity]|].
  split; [apply sc_dec, Hc|]. split; vm_compute; congruence.
Qed.

(** the proviso cannot be dropped: with 2^63 for 1, an f32 correction of a state of variance 3 by a reading of variance 3 overflows and does nothing *)
Definition u_units : units := {| u_x := fun _ => 63%Z; u_c := fun _ _ => 0%Z; u_o := fun _ _ => 63%Z |}.
Definition u_world (e : Z) : world spec_float := mk_world (kf1 (f32 1 0) (f32 2 e) (f32 3 (e + e))) [] [(1, mk_obs [f32 1 0] [f32 1 e] [f32 3 (e + e)] [z0] [z0] [z0] [z0] [z0] [z0] [z0])].
Definition uw := Eval vm_compute in u_world 0.
Definition uw' := Eval vm_compute in u_world 63.
Lemma scale_overflow (c : cfg) : 255 <= usize_max c -> exists w1 w1',
  world_ok c 1 uw /\ world_ok c 1 uw' /\ world_scaled 24 128 1 u_units uw uw' /\
  run c (f32_num true) 1 uw [OCorrect 0] = Ok w1 /\ run c (f32_num true) 1 uw' [OCorrect 0] = Ok w1' /\
  kf_x (w_kf w1) <> kf_x (w_kf uw) /\ kf_x (w_kf w1') = kf_x (w_kf uw').
Proof.
  intros Hc. eexists. eexists.
  split; [wok Hc|].
  split; [wok Hc|].
  split.
  { split; [split; [|split; [|split]]; sc|]. split; [reflexivity|]. split; [reflexivity|]. split.
    - intros [|i] m m' k k' E E'; discriminate.
    - intros [|i] m m' k k' E E'; [|destruct i; discriminate]. cbn in E, E'. injection E as <- <-. injection E' as <- <-. split; [reflexivity|]. split; [|split]; sc. }
  split; [eapply sim_ok; [apply sim_run, tiny_stricter, Hc|vm_compute; reflexivity]|]. split; [eapply sim_ok; [apply sim_run, tiny_stricter, Hc|vm_compute; reflexivity]|].
  split; [vm_compute; congruence|vm_compute; reflexivity].
Qed.
