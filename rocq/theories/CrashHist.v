(** * Histories of calls with caught panics: the objects stay usable *)
From Coq Require Import Lia.
From Verif Require Import Spec Matrix Filter Extended SpecFilter History SpecGen Wp Kernels Chol FilterGen FilterTwo HistGen HistTwo BuildSim Crash SpecCrash CrashErase CrashKernels CrashTorn CrashCalls CrashSim.

Section Hist.
Context {T : Type} (c : cfg) (N : num T) (n : nat) (who : panic -> Prop).
Ltac two_refl := apply HistGen.Forall2_refl; intros; (split; [reflexivity|repeat split]).

(** what is left of a program after a call: usable, same shapes, and if the call is one of the library's, same models and data *)
Definition usable (w w' : world T) (o : cop T) : Prop :=
  world_ok c n w' /\ (ct_dims w' = ct_dims w /\ ob_dims w' = ob_dims w) /\ (cop_is_call o = true -> world_same_model n w w').

Lemma usable_kf (w : world T) o f : world_ok c n w -> kf_kept c n (w_kf w) f -> usable w (set_kf w f) o.
Proof. intros Hw (V & M & TT). split; [apply set_kf_ok; assumption|]. split; [split; reflexivity|]. intros _. split; [exact M|]. split; [exact TT|]. split; cbn; two_refl. Qed.
Lemma usable_ct (w : world T) o i m k k' f : world_ok c n w -> nth_error (w_ct w) i = Some (m, k) -> kf_kept c n (w_kf w) f -> ct_kept c n m k k' -> usable w (set_ct (set_kf w f) i (m, k')) o.
Proof.
  intros Hw E (V & M & TT) (V' & M'). destruct (set_ct_ok c n (set_kf w f) i m k k' (set_kf_ok c n _ _ Hw V) E V') as [H1 H2].
  split; [exact H1|]. split; [exact H2|]. intros _. split; [exact M|]. split; [exact TT|]. split; cbn; [|two_refl]. eapply Forall2_upd_l; [two_refl|exact E|split; auto].
Qed.
Lemma usable_ob (w : world T) o j m b b' f : world_ok c n w -> nth_error (w_ob w) j = Some (m, b) -> kf_kept c n (w_kf w) f -> ob_kept c n m b b' -> usable w (set_ob (set_kf w f) j (m, b')) o.
Proof.
  intros Hw E (V & M & TT) (V' & M'). destruct (set_ob_ok c n (set_kf w f) j m b b' (set_kf_ok c n _ _ Hw V) E V') as [H1 H2].
  split; [exact H1|]. split; [exact H2|]. intros _. split; [exact M|]. split; [exact TT|]. split; cbn; [two_refl|]. eapply Forall2_upd_l; [two_refl|exact E|split; auto].
Qed.
Lemma usable_refl (w : world T) o : world_ok c n w -> usable w w o.
Proof. intros Hw. split; [exact Hw|]. split; [split; reflexivity|]. intros _. apply model_refl. Qed.

(** a closure that never unwinds, for the calls that returned *)
Definition calm (h : list T -> list T -> cr (list T)) : list T -> list T -> res (list T) := fun x out => match h x out with Returned o => Ok o | Unwound _ _ => Ok out end.
Lemma calm_ok m h : closure_keeps c m n who h -> closure_ok c N m n (calm h).
Proof. intros H x out Vx Vo. pose proof (H x out Vx Vo) as K. unfold calm. destruct (h x out); cbn [wp]; [exact K|exact Vo]. Qed.
Lemma calm_pnl h f r : predict_nonlinear c N n (er_closure h) f = Ok r -> predict_nonlinear c N n (calm h) f = Ok r.
Proof. unfold predict_nonlinear, predict_x_nonlinear, er_closure, calm. destruct (h (kf_x f) (kf_px f)); cbn [erase bind]; [auto|discriminate]. Qed.
Lemma calm_ptnl lam h f r : predict_tuned_nonlinear c N n lam (er_closure h) f = Ok r -> predict_tuned_nonlinear c N n lam (calm h) f = Ok r.
Proof. unfold predict_tuned_nonlinear, predict_x_nonlinear, er_closure, calm. destruct (h (kf_x f) (kf_px f)); cbn [erase bind]; [auto|discriminate]. Qed.
Lemma calm_cnl m h o f r : correct_nonlinear c N n m (er_closure h) o f = Ok r -> correct_nonlinear c N n m (calm h) o f = Ok r.
Proof. unfold correct_nonlinear, obs_correct_nonlinear, er_closure, calm. destruct (h (kf_x f) (ob_y o)); cbn [erase bind]; [auto|discriminate]. Qed.

Theorem step_caught (w : world T) o : world_ok c n w -> cop_keeps c n who (ob_dims w) o ->
  cwp (step_cr c N n w o) (fun w' => usable w w' o) (fun w' p => usable w w' o /\ (arith_only N p \/ who p)).
Proof.
  intros Hw Ho. pose proof Hw as (Hn & (Vf & Vc & Vo) & Hd).
  assert (KF : forall m, (forall f p, m = Unwound f p -> kf_kept c n (w_kf w) f /\ (arith_only N p \/ who p)) -> (forall f, m = Returned f -> kf_kept c n (w_kf w) f) ->
    cwp (cmap (set_kf w) m) (fun w' => usable w w' o) (fun w' p => usable w w' o /\ (arith_only N p \/ who p))).
  { intros [f|f p] HU HR; cbn [cmap cwp]; [apply usable_kf; auto|]. destruct (HU f p eq_refl) as (K & HP). split; [apply usable_kf; assumption|exact HP]. }
  assert (WP : forall (m : res (kalman T)) f, wp m (fun f' => kf_kept c n (w_kf w) f') (arith_only N) -> m = Ok f -> kf_kept c n (w_kf w) f).
  { intros m f W ->. exact W. }
  destruct o as [|lam|h|lam h|i|j|j h|o]; cbn [step_cr cop_keeps] in *.
  - apply KF.
    + intros f p E. destruct (predict_left c N n _ _ _ Hn Vf E) as (A & K & _). auto.
    + intros f E. eapply WP; [apply (predict_wp c N n _ Hn Vf)|]. rewrite <- er_predict, E. reflexivity.
  - apply KF.
    + intros f p E. destruct (predict_tuned_left c N n _ _ _ _ Hn Vf E) as (A & K & _). auto.
    + intros f E. eapply WP; [apply (predict_tuned_wp c N n lam _ Hn Vf)|]. rewrite <- er_predict_tuned, E. reflexivity.
  - apply KF.
    + intros f p E. destruct (predict_nonlinear_left c N n who _ _ _ _ Hn Vf Ho E) as (K & [(_ & P & _)|(P & _)]); auto.
    + intros f E. eapply WP; [apply (predict_nonlinear_wp c N n _ _ Hn Vf (calm_ok n h Ho))|]. apply calm_pnl. rewrite <- er_predict_nonlinear, E. reflexivity.
  - apply KF.
    + intros f p E. destruct (predict_tuned_nonlinear_left c N n who _ _ _ _ _ Hn Vf Ho E) as (K & [(_ & P & _)|(P & _)]); auto.
    + intros f E. eapply WP; [apply (predict_tuned_nonlinear_wp c N n lam _ _ Hn Vf (calm_ok n h Ho))|]. apply calm_ptnl. rewrite <- er_predict_tuned_nonlinear, E. reflexivity.
  - destruct (nth_error (w_ct w) i) as [[m k]|] eqn:E; [|apply usable_refl, Hw]. pose proof (HistGen.Forall_nth _ _ _ _ Vc E) as Vk; cbn [fst snd] in Vk.
    destruct (control_cr c N n m k (w_kf w)) as [[k' f]|[k' f] p] eqn:E1; cbn [cmap cwp fst snd].
    + pose proof (control_wp c N n m k (w_kf w) Vk Vf) as W. rewrite <- er_control, E1 in W. cbn [erase wp] in W. destruct W as (V & M & V' & M' & TT).
      eapply usable_ct; [exact Hw|exact E|split; [exact V'|split; [exact M'|exact TT]]|split; [exact V|exact M]].
    + destruct (control_left c N n m k k' (w_kf w) f p Vf Vk E1) as (P & K & K' & _). split; [eapply usable_ct; eauto|auto].
  - destruct (nth_error (w_ob w) j) as [[m b]|] eqn:E; [|apply usable_refl, Hw]. pose proof (HistGen.Forall_nth _ _ _ _ Vo E) as Vk; cbn [fst snd] in Vk.
    pose proof (HistGen.Forall_nth _ _ _ _ Hd (ob_dims_nth _ _ _ _ E)) as Hm. cbv beta in Hm.
    destruct (correct_cr c N n m b (w_kf w)) as [[b' f]|[b' f] p] eqn:E1; cbn [cmap cwp fst snd].
    + pose proof (correct_wp c N n m b (w_kf w) Hn Hm Vk Vf) as W. rewrite <- er_correct, E1 in W. cbn [erase wp] in W. destruct W as (V & M & V' & M' & TT).
      eapply usable_ob; [exact Hw|exact E|split; [exact V'|split; [exact M'|exact TT]]|split; [exact V|exact M]].
    + destruct (correct_left c N n m b b' (w_kf w) f p Hn Hm Vk Vf E1) as (P & K & K' & _). split; [eapply usable_ob; eauto|auto].
  - destruct (nth_error (w_ob w) j) as [[m b]|] eqn:E; [|apply usable_refl, Hw]. pose proof (HistGen.Forall_nth _ _ _ _ Vo E) as Vk; cbn [fst snd] in Vk.
    pose proof (HistGen.Forall_nth _ _ _ _ Hd (ob_dims_nth _ _ _ _ E)) as Hm. cbv beta in Hm. rewrite (ob_dims_nth _ _ _ _ E) in Ho.
    destruct (correct_nonlinear_cr c N n m h b (w_kf w)) as [[b' f]|[b' f] p] eqn:E1; cbn [cmap cwp fst snd].
    + pose proof (correct_nonlinear_wp c N n m (calm h) b (w_kf w) Hn Hm Vk Vf (calm_ok m h Ho)) as W. pose proof (er_correct_nonlinear c N n m h b (w_kf w)) as Er. rewrite E1 in Er. cbn [erase] in Er.
      symmetry in Er. apply calm_cnl in Er. rewrite Er in W. cbn [wp] in W. destruct W as (V & M & V' & M' & TT).
      eapply usable_ob; [exact Hw|exact E|split; [exact V'|split; [exact M'|exact TT]]|split; [exact V|exact M]].
    + destruct (correct_nonlinear_left c N n m who h b b' (w_kf w) f p Hn Hm Vk Vf Ho E1) as (K & K' & [(_ & P & _)|(P & _)]); (split; [eapply usable_ob; eauto|auto]).
  - destruct (is_setter o) eqn:Es; [|apply usable_refl, Hw].
    assert (So : op_safe c N n (ob_dims w) o) by (destruct o; try discriminate; exact I).
    pose proof (step_wp c N n w o Hw So) as W. unfold lastly, calc. destruct (step c N n w o) as [w'|p]; cbn [wp cwp] in *.
    + destruct W as (W1 & W2 & _). split; [exact W1|]. split; [exact W2|]. discriminate.
    + split; [apply usable_refl, Hw|auto].
Qed.

Theorem run_caught os : forall w : world T, world_ok c n w -> Forall (cop_keeps c n who (ob_dims w)) os ->
  let r := run_catch c N n w os in
  world_ok c n (fst r) /\ (ct_dims (fst r) = ct_dims w /\ ob_dims (fst r) = ob_dims w) /\ (forallb cop_is_call os = true -> world_same_model n w (fst r)) /\
  length (snd r) = length os /\ Forall (fun e => forall p, e = Some p -> arith_only N p \/ who p) (snd r).
Proof.
  induction os as [|o os IH]; intros w Hw Ho r; unfold r; clear r; cbn [run_catch].
  - cbn [fst snd length forallb]. split; [exact Hw|]. split; [split; reflexivity|]. split; [intros _; apply model_refl|]. split; [reflexivity|constructor].
  - inversion Ho as [|? ? Ho1 Ho2]; subst. pose proof (step_caught w o Hw Ho1) as S. destruct (step_cr c N n w o) as [w'|w' p]; cbn [cwp] in S.
    + destruct S as (W1 & (D1 & D2) & M1). rewrite <- D2 in Ho2. destruct (IH w' W1 Ho2) as (A & (B1 & B2) & C & D & E). cbn [fst snd length forallb].
      split; [exact A|]. split; [split; congruence|]. split; [|split; [congruence|constructor; [discriminate|exact E]]].
      intros HB. apply andb_prop in HB as [HB1 HB2]. eapply model_trans; eauto.
    + destruct S as ((W1 & (D1 & D2) & M1) & P). rewrite <- D2 in Ho2. destruct (IH w' W1 Ho2) as (A & (B1 & B2) & C & D & E). cbn [fst snd length forallb].
      split; [exact A|]. split; [split; congruence|]. split; [|split; [congruence|constructor; [intros q [= <-]; exact P|exact E]]].
      intros HB. apply andb_prop in HB as [HB1 HB2]. eapply model_trans; eauto.
Qed.

(** without a panic it is the run of History.v *)
Theorem run_catch_quiet os : forall (w w' : world T), (fst (run_catch c N n w os) = w' /\ Forall (fun e => e = None) (snd (run_catch c N n w os))) <-> run c N n w (flat_map forget_op os) = Ok w'.
Proof.
  assert (APP : forall os1 os2 w, run c N n w (os1 ++ os2) = bind (run c N n w os1) (fun w => run c N n w os2)).
  { induction os1 as [|o os1 IH]; intros os2 w; cbn [run app]; [reflexivity|]. rewrite bind_assoc. apply bind_ext. intros; apply IH. }
  induction os as [|o os IH]; intros w w'; cbn [run_catch flat_map].
  - cbn. split; [intros [-> _]; reflexivity|intros [= ->]; auto].
  - rewrite APP, <- er_step. destruct (step_cr c N n w o) as [w1|w1 p]; cbn [erase bind fst snd].
    + rewrite <- IH. split; intros [H1 H2]; (split; [exact H1|]); [inversion H2; assumption|constructor; [reflexivity|exact H2]].
    + split; [|discriminate]. intros [_ H]. inversion H; discriminate.
Qed.
End Hist.

(** ** the build *)
Section Builds.
Context {T : Type} (N : num T) (n : nat) (who : panic -> Prop).
Lemma catch_cautious (c c2 : cfg) os : (forall p, who p -> ~ build_panic p) -> usize_max c <= usize_max c2 -> forall w : world T,
  world_ok c n w -> Forall (cop_keeps c n who (ob_dims w)) os -> run_catch (cautious c) N n w os = run_catch c2 N n w os.
Proof.
  intros HP Hu. assert (St : stricter (cautious c) c2) by (split; [exact Hu|repeat split]). induction os as [|o os IH]; intros w Hw Ho; [reflexivity|]. inversion Ho as [|? ? Ho1 Ho2]; subst. cbn [run_catch].
  pose proof (step_caught (cautious c) N n who w o Hw Ho1) as S.
  assert (E : step_cr c2 N n w o = step_cr (cautious c) N n w o).
  { eapply csim_eq; [apply (csim_step N (cautious c) c2 St)|reflexivity|]. intros s e E. rewrite E in S. destruct S as (_ & [(-> & _)|P]); [intros [?|[?|?]]; discriminate|exact (HP e P)]. }
  rewrite E. destruct (step_cr (cautious c) N n w o) as [w'|w' p]; cbn [cwp] in S.
  - destruct S as (W1 & (_ & D2) & _). rewrite (IH w' W1); [reflexivity|]. rewrite D2. exact Ho2.
  - destruct S as ((W1 & (_ & D2) & _) & _). rewrite (IH w' W1); [reflexivity|]. rewrite D2. exact Ho2.
Qed.
Theorem catch_builds (c1 c2 : cfg) (w : world T) os : (forall p, who p -> ~ build_panic p) -> world_ok c1 n w -> world_ok c2 n w ->
  Forall (cop_keeps c1 n who (ob_dims w)) os -> Forall (cop_keeps c2 n who (ob_dims w)) os -> run_catch c1 N n w os = run_catch c2 N n w os.
Proof.
  intros HP W1 W2 O1 O2. destruct (Nat.le_ge_cases (usize_max c1) (usize_max c2)) as [H|H].
  - rewrite <- (catch_cautious c1 c1 os), <- (catch_cautious c1 c2 os); auto.
  - rewrite <- (catch_cautious c2 c1 os), <- (catch_cautious c2 c2 os); auto.
Qed.
End Builds.
