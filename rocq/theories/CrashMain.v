(** * Panicking closures, rollback *)
From Coq Require Import Lia.
From Verif Require Import Spec Matrix Filter Extended SpecFilter History SpecGen Wp Kernels Chol FilterGen FilterTwo HistGen HistTwo Crash SpecCrash CrashErase CrashKernels CrashTorn CrashCalls CrashHist CrashTwo.

Section Main.
Context {T : Type} (c : cfg) (N : num T) (n : nat) (who : panic -> Prop).

Lemma same_refl R C (a : list T) : same_matrix R C a a.
Proof. intros p Hp. reflexivity. Qed.
Lemma Forall2_valid {A} (P : A -> Prop) (R Q : A -> A -> Prop) l l' : (forall a b, P a -> P b -> R a b -> Q a b) -> Forall P l -> Forall P l' -> Forall2 R l l' -> Forall2 Q l l'.
Proof. intros H F1 F2 HR. induction HR as [|a b l l' Hab _ IH]; constructor; inversion F1; inversion F2; subst; auto. Qed.

(** same models, and state and covariance as they were: the same program up to scratch space *)
Lemma rel_back (w w' : world T) f : world_ok c n w -> world_ok c n w' -> world_same_model n w w' -> kf_valid c n f -> kf_A f = kf_A (w_kf w) -> kf_Q f = kf_Q (w_kf w) ->
  kf_x f = kf_x (w_kf w) -> kf_P f = kf_P (w_kf w) -> world_rel c n w (set_kf w' f).
Proof.
  intros (_ & (Vf & Vc & Vo) & _) (_ & (_ & Vc' & Vo') & _) (_ & _ & Mc & Mo) V EA EQ Ex EP. split; [|split].
  - split; [exact Vf|]. split; [exact V|]. unfold kf_same. cbn [set_kf w_kf]. rewrite EA, EQ, Ex, EP. repeat split; apply same_refl.
  - cbn [set_kf w_ct]. eapply Forall2_valid; [|exact Vc|exact Vc'|exact Mc]. intros [m k] [m' k'] V1 V2 (E & EB & Eu & EQc). cbn [fst snd] in *. subst m'. split; [reflexivity|].
    split; [exact V1|]. split; [exact V2|]. unfold ct_same. rewrite EB, Eu, EQc. repeat split; apply same_refl.
  - cbn [set_kf w_ob]. eapply Forall2_valid; [|exact Vo|exact Vo'|exact Mo]. intros [m k] [m' k'] V1 V2 (E & EB & Eu & EQc). cbn [fst snd] in *. subst m'. split; [reflexivity|].
    split; [exact V1|]. split; [exact V2|]. unfold ob_same. rewrite EB, Eu, EQc. repeat split; apply same_refl.
Qed.

(** ** C118 *)
Lemma restore_rel (w w' : world T) : world_ok c n w -> world_ok c n w' -> world_same_model n w w' -> world_rel c n w (restore w w').
Proof.
  intros Hw Hw' M. pose proof Hw as (_ & (Vf & _) & _). pose proof Hw' as (_ & (Vf' & _) & _). destruct M as ((EA & EQ) & TT & Mc & Mo). unfold restore.
  apply rel_back; [exact Hw|exact Hw'|split; [split; [exact EA|exact EQ]|split; [exact TT|split; assumption]]| |exact EA|exact EQ|reflexivity|reflexivity].
  destruct Vf as (_ & Vx & VP & _). destruct Vf' as (VA & _ & _ & VQ & Vpx & VtP). unfold kf_valid; cbn. repeat split; try apply VA; try apply Vx; try apply VP; try apply VQ; try apply Vpx; try apply VtP.
Qed.
Theorem rollback (w : world T) os : world_ok c n w -> Forall (cop_keeps c n who (ob_dims w)) os -> forallb cop_is_call os = true ->
  let w' := restore w (fst (run_catch c N n w os)) in
  world_ok c n w' /\ world_rel c n w w' /\
  forall os1 os2, Forall2 (cop_alike c n (ob_dims w)) os1 os2 -> same_story c n (run_catch c N n w os1) (run_catch c N n w' os2).
Proof.
  intros Hw Ho Hc w'. destruct (run_caught c N n who os w Hw Ho) as (W1 & (D1 & D2) & M & _). pose proof (restore_rel w _ Hw W1 (M Hc)) as R. fold w' in R.
  split; [|split; [exact R|]].
  - apply set_kf_ok; [exact W1|]. destruct R as ((_ & V & _) & _). exact V.
  - intros os1 os2 Ha. apply run_catch_two; [apply Hw|apply Hw|exact R|exact Ha].
Qed.

(** ** C114 *)
Lemma own_panic (w : world T) o out p : world_ok c n w -> cop_keeps c n who (ob_dims w) o -> closure_call w o = Some (Unwound out p) ->
  exists w', step_cr c N n w o = Unwound w' p /\ untouched (w_kf w) (w_kf w').
Proof.
  intros Hw Ho E. destruct o as [|lam|h|lam h|i|j|j h|o]; try discriminate; cbn [closure_call step_cr] in *.
  - injection E as E. unfold predict_nonlinear_cr, predict_x_nonlinear_cr. rewrite E. cbn. eexists. split; [reflexivity|split; reflexivity].
  - injection E as E. unfold predict_tuned_nonlinear_cr, predict_x_nonlinear_cr. rewrite E. cbn. eexists. split; [reflexivity|split; reflexivity].
  - destruct (nth_error (w_ob w) j) as [[m b]|]; [|discriminate]. injection E as E. unfold correct_nonlinear_cr. rewrite E. cbn. eexists. split; [reflexivity|split; reflexivity].
Qed.
Theorem closure_panics (w : world T) o out p : world_ok c n w -> cop_keeps c n who (ob_dims w) o -> closure_call w o = Some (Unwound out p) ->
  exists w', step_cr c N n w o = Unwound w' p /\ kf_x (w_kf w') = kf_x (w_kf w) /\ kf_P (w_kf w') = kf_P (w_kf w) /\ world_same_model n w w' /\
    forall os1 os2, Forall2 (cop_alike c n (ob_dims w)) os1 os2 -> same_story c n (run_catch c N n w os1) (run_catch c N n w' os2).
Proof.
  intros Hw Ho E. destruct (own_panic w o out p Hw Ho E) as (w' & E' & Ex & EP). pose proof (step_caught c N n who w o Hw Ho) as S. rewrite E' in S. destruct S as ((W1 & _ & M) & _).
  assert (C : cop_is_call o = true) by (destruct o; try discriminate; reflexivity). specialize (M C).
  exists w'. split; [exact E'|]. split; [exact Ex|]. split; [exact EP|]. split; [exact M|]. intros os1 os2 Ha.
  apply run_catch_two; [apply Hw|apply Hw| |exact Ha].
  pose proof (rel_back w w' (w_kf w') Hw W1 M (proj1 (proj1 (proj2 W1))) (proj1 (proj1 M)) (proj2 (proj1 M)) Ex EP) as R.
  destruct w'; exact R.
Qed.
End Main.
