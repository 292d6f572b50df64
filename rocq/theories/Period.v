(** * A filter that repeats a cycle of calls *)
From Coq Require Import ZArith Lia List Floats.SpecFloat.
From Verif Require Import Prelude Numeric FloatNum FixedNum Matrix Filter Extended History Spec SpecFilter SpecGen SpecParam SpecUnit SpecFloats Wp Kernels FilterGen FilterTwo HistGen HistTwo Param UnitProof FloatGen SpecReal SpecPeriod.
Import ListNotations.
Local Open Scope nat_scope.

(** ** the pigeonhole principle *)
Lemma pigeonhole (B : nat) (f : nat -> nat) : (forall k, k <= B -> f k < B) -> exists i j, i < j /\ j <= B /\ f i = f j.
Proof.
  intros H. destruct (Exists_dec (fun i => Exists (fun j => i < j /\ f i = f j) (seq 0 (S B))) (seq 0 (S B))) as [E|E].
  - intros i. apply Exists_dec. intros j. destruct (lt_dec i j); [|right; tauto]. destruct (Nat.eq_dec (f i) (f j)); [left; tauto|right; tauto].
  - apply Exists_exists in E as (i & Hi & E). apply Exists_exists in E as (j & Hj & L & Q). apply in_seq in Hj. exists i, j. repeat split; [exact L|lia|exact Q].
  - exfalso. assert (ND : NoDup (map f (seq 0 (S B)))).
    { assert (I : forall i j, In i (seq 0 (S B)) -> In j (seq 0 (S B)) -> f i = f j -> i = j).
      { intros i j Hi Hj Q. destruct (Nat.lt_trichotomy i j) as [L|[L|L]]; [|exact L|]; exfalso; apply E; apply Exists_exists.
        - exists i. split; [exact Hi|]. apply Exists_exists. exists j. auto.
        - exists j. split; [exact Hj|]. apply Exists_exists. exists i. auto. }
      revert I. generalize (seq_NoDup (S B) 0). generalize (seq 0 (S B)). induction l as [|a l IH]; intros ND I; cbn; constructor.
      - intros Hin. apply in_map_iff in Hin as (b & Q & Hb). inversion ND; subst. assert (a = b) by (apply I; [left; reflexivity|right; exact Hb|auto]). subst b. contradiction.
      - inversion ND; subst. apply IH; [assumption|]. intros i j Hi Hj. apply I; right; assumption. }
    pose proof (NoDup_incl_length ND (l' := seq 0 B)) as L. rewrite map_length, !seq_length in L. enough (S B <= B) by lia. apply L.
    intros v Hv. apply in_map_iff in Hv as (k & <- & Hk). apply in_seq in Hk. apply in_seq. specialize (H k ltac:(lia)). lia.
Qed.

(** ** numbering lists *)
Section Number.
Context {T : Type} (D : T -> Prop) (M : Z) (number : T -> Z).
Hypothesis Hr : forall t, D t -> (0 <= number t < M)%Z.
Hypothesis Hi : forall a b, D a -> D b -> number a = number b -> a = b.
Fixpoint code (l : list T) : Z := match l with [] => 0%Z | a :: l => (number a + M * code l)%Z end.
Lemma code_range l : Forall D l -> (0 <= code l < M ^ Z.of_nat (length l))%Z.
Proof.
  induction 1 as [|a l Ha _ IH]; [cbn; lia|]. cbn [code length]. rewrite Nat2Z.inj_succ, Z.pow_succ_r by lia. pose proof (Hr a Ha). nia.
Qed.
Lemma code_inj l : forall l', length l = length l' -> Forall D l -> Forall D l' -> code l = code l' -> l = l'.
Proof.
  induction l as [|a l IH]; intros [|b l'] L F F' E; try discriminate L; [reflexivity|]. inversion F as [|? ? Ha F1]; subst. inversion F' as [|? ? Hb F2]; subst. cbn [code] in E.
  pose proof (Hr a Ha) as Ra. pose proof (Hr b Hb) as Rb.
  assert (Q : code l = code l') by nia. rewrite Q in E. f_equal; [apply Hi; auto; lia|]. apply IH; auto.
Qed.
End Number.

(** ** covariances and gains of two programs that differ in data *)
Section Gen.
Context {T : Type} (c : cfg) (N : num T).
Ltac ob H l E := match type of H with bind ?m _ = Ok _ => destruct m as [l|] eqn:E; cbn [bind] in H; [|discriminate] end.
Lemma gains_weaken n js js' (w1 w2 : world T) : (forall j, In j js' -> In j js) -> gains_same n js w1 w2 -> gains_same n js' w1 w2.
Proof. intros H G j m b1 b2 Hj. apply G, H, Hj. Qed.
Lemma gains_kf n js (w1 w2 : world T) f1 f2 : gains_same n js w1 w2 -> gains_same n js (set_kf w1 f1) (set_kf w2 f2).
Proof. intros G. exact G. Qed.
Lemma gains_upd n js (w1 w2 : world T) j m b1 b2 js0 : gains_same n js w1 w2 -> (In j js0 -> same_matrix n m (ob_K b1) (ob_K b2)) -> (forall i, In i js0 -> i <> j -> In i js) ->
  gains_same n js0 (set_ob w1 j (m, b1)) (set_ob w2 j (m, b2)).
Proof.
  intros G K S i m' a1 a2 Hin E1 E2. cbn in E1, E2. rewrite nth_error_upd in E1, E2. destruct (Nat.eqb_spec i j) as [->|Q].
  - destruct (Nat.ltb j (length (w_ob w1))); [|discriminate]. destruct (Nat.ltb j (length (w_ob w2))); [|discriminate]. injection E1 as <- <-. injection E2 as <-. apply K, Hin.
  - exact (G i m' a1 a2 (S i Hin Q) E1 E2).
Qed.
Lemma step_gains n js (w1 w2 w1' w2' : world T) o1 o2 : 1 <= n -> Forall (fun m => 1 <= m) (ob_dims w1) -> world_cov c n w1 w2 -> op_cov o1 o2 ->
  op_safe c N n (ob_dims w1) o1 -> op_safe c N n (ob_dims w1) o2 -> step c N n w1 o1 = Ok w1' -> step c N n w2 o2 = Ok w2' ->
  gains_same n js w1 w2 -> gains_same n (corrected o1 ++ js) w1' w2'.
Proof.
  intros Hn Hd Cw Ho S1 S2 E1 E2 G. pose proof Cw as (Cf & _ & _).
  destruct o1; destruct o2; cbn [op_cov] in Ho; try discriminate Ho; try (injection Ho; intros; subst); try subst; cbn [step op_safe corrected app] in *.
  1-4: ob E1 f1 F1; ob E2 f2 F2; injection E1 as <-; injection E2 as <-; exact G.
  - pose proof (cov_ct_nth c n w1 w2 i0 Cw) as P. destruct (nth_error (w_ct w1) i0) as [[m1 k1]|], (nth_error (w_ct w2) i0) as [[m2 k2]|]; try contradiction.
    + ob E1 r1 F1. ob E2 r2 F2. destruct r1, r2. injection E1 as <-. injection E2 as <-. exact G.
    + injection E1 as <-; injection E2 as <-; exact G.
  - pose proof (cov_ob_nth c n w1 w2 j0 Cw) as P. destruct (nth_error (w_ob w1) j0) as [[m1 k1]|] eqn:Ej, (nth_error (w_ob w2) j0) as [[m2 k2]|] eqn:Ej2; try contradiction.
    + destruct P as [<- P]. pose proof (HistGen.Forall_nth _ _ _ _ Hd (ob_dims_nth _ _ _ _ Ej)) as Hm. pose proof (correct_cov c N n m1 k1 k2 _ _ Hn Hm P Cf) as CC.
      ob E1 r1 F1. ob E2 r2 F2. cbn [rok] in CC. destruct r1 as [k1' f1], r2 as [k2' f2]. injection E1 as <-. injection E2 as <-. destruct CC as (_ & _ & SK). cbn [fst snd] in SK.
      apply (gains_upd n js); [exact G|intros _; exact SK|]. intros i [<-|Hin] Q; [contradiction|exact Hin].
    + injection E1 as <-; injection E2 as <-. intros j m b1 b2 [<-|Hin] Q1 Q2; [congruence|exact (G j m b1 b2 Hin Q1 Q2)].
  - pose proof (cov_ob_nth c n w1 w2 j0 Cw) as P. destruct (nth_error (w_ob w1) j0) as [[m1 k1]|] eqn:Ej, (nth_error (w_ob w2) j0) as [[m2 k2]|] eqn:Ej2; try contradiction.
    + destruct P as [<- P]. pose proof (HistGen.Forall_nth _ _ _ _ Hd (ob_dims_nth _ _ _ _ Ej)) as Hm. rewrite (ob_dims_nth _ _ _ _ Ej) in S1, S2.
      pose proof (correct_nl_cov c N n m1 _ _ k1 k2 _ _ Hn Hm S1 S2 P Cf) as CC.
      ob E1 r1 F1. ob E2 r2 F2. cbn [rok] in CC. destruct r1 as [k1' f1], r2 as [k2' f2]. injection E1 as <-. injection E2 as <-. destruct CC as (_ & _ & SK). cbn [fst snd] in SK.
      apply (gains_upd n js); [exact G|intros _; exact SK|]. intros i [<-|Hin] Q; [contradiction|exact Hin].
    + injection E1 as <-; injection E2 as <-. intros j m b1 b2 [<-|Hin] Q1 Q2; [congruence|exact (G j m b1 b2 Hin Q1 Q2)].
  - injection E1 as <-; injection E2 as <-; exact G.
  - injection E1 as <-; injection E2 as <-; exact G.
  - injection E1 as <-; injection E2 as <-; exact G.
  - injection E1 as <-; injection E2 as <-; exact G.
  - destruct (nth_error (w_ct w1) _) as [[m1 k1]|], (nth_error (w_ct w2) _) as [[m2 k2]|]; injection E1 as <-; injection E2 as <-; exact G.
  - destruct (nth_error (w_ct w1) _) as [[m1 k1]|], (nth_error (w_ct w2) _) as [[m2 k2]|]; injection E1 as <-; injection E2 as <-; exact G.
  - destruct (nth_error (w_ct w1) _) as [[m1 k1]|], (nth_error (w_ct w2) _) as [[m2 k2]|]; injection E1 as <-; injection E2 as <-; exact G.
  - pose proof (cov_ob_nth c n w1 w2 j0 Cw) as P. destruct (nth_error (w_ob w1) j0) as [[m1 k1]|] eqn:Ej, (nth_error (w_ob w2) j0) as [[m2 k2]|] eqn:Ej2; try contradiction; injection E1 as <-; injection E2 as <-; [|exact G].
    destruct P as [<- P]. apply (gains_upd n js); [exact G| |auto]. intros Hin. exact (G j0 m1 k1 k2 Hin Ej Ej2).
  - pose proof (cov_ob_nth c n w1 w2 j0 Cw) as P. destruct (nth_error (w_ob w1) j0) as [[m1 k1]|] eqn:Ej, (nth_error (w_ob w2) j0) as [[m2 k2]|] eqn:Ej2; try contradiction; injection E1 as <-; injection E2 as <-; [|exact G].
    destruct P as [<- P]. apply (gains_upd n js); [exact G| |auto]. intros Hin. exact (G j0 m1 k1 k2 Hin Ej Ej2).
  - pose proof (cov_ob_nth c n w1 w2 j0 Cw) as P. destruct (nth_error (w_ob w1) j0) as [[m1 k1]|] eqn:Ej, (nth_error (w_ob w2) j0) as [[m2 k2]|] eqn:Ej2; try contradiction; injection E1 as <-; injection E2 as <-; [|exact G].
    destruct P as [<- P]. apply (gains_upd n js); [exact G| |auto]. intros Hin. exact (G j0 m1 k1 k2 Hin Ej Ej2).
Qed.
Lemma run_gains n os1 os2 : 1 <= n -> forall js (w1 w2 w1' w2' : world T), Forall (fun m => 1 <= m) (ob_dims w1) -> world_cov c n w1 w2 -> Forall2 op_cov os1 os2 ->
  Forall (op_safe c N n (ob_dims w1)) os1 -> Forall (op_safe c N n (ob_dims w1)) os2 -> run c N n w1 os1 = Ok w1' -> run c N n w2 os2 = Ok w2' ->
  gains_same n js w1 w2 -> world_cov c n w1' w2' /\ gains_same n (flat_map corrected os1 ++ js) w1' w2'.
Proof.
  intros Hn. revert os2. induction os1 as [|o1 os1 IH]; intros os2 js w1 w2 w1' w2' Hd Cw Ho S1 S2 E1 E2 G.
  - inversion Ho; subst. injection E1 as <-. injection E2 as <-. auto.
  - inversion Ho as [|? o2 ? os2' Ho1 Ho2]; subst. inversion S1; subst. inversion S2; subst. cbn [run] in E1, E2. ob E1 v1 F1. ob E2 v2 F2.
    pose proof (step_cov c N n w1 w2 o1 o2 Hn Hd Cw Ho1 ltac:(assumption) ltac:(assumption)) as CC. rewrite F1, F2 in CC. cbn [rok] in CC.
    pose proof (step_dims c N n w1 o1 v1 F1) as [_ D].
    destruct (IH os2' (corrected o1 ++ js) v1 v2 w1' w2') as [A B]; try assumption; try (rewrite D; assumption).
    + exact (step_gains n js w1 w2 v1 v2 o1 o2 Hn Hd Cw Ho1 ltac:(assumption) ltac:(assumption) F1 F2 G).
    + split; [exact A|]. refine (gains_weaken n _ _ w1' w2' _ B). intros j Hj. cbn [flat_map] in Hj. rewrite !in_app_iff in *. tauto.
Qed.
End Gen.

Section Main.
Context {T : Type} (c : cfg) (N : num T) (n : nat).
Ltac ob H l E := match type of H with bind ?m _ = Ok _ => destruct m as [l|] eqn:E; cbn [bind] in H; [|discriminate] end.
(** the models of a program *)
Definition models (w : world T) :=
  (kf_A (w_kf w), kf_Q (w_kf w), map (fun v => (fst v, ct_B (snd v), ct_Q (snd v))) (w_ct w), map (fun v => (fst v, ob_H (snd v), ob_R (snd v))) (w_ob w)).
Lemma map_upd {A B} (g : A -> B) l i a b : nth_error l i = Some a -> g b = g a -> map g (upd l i b) = map g l.
Proof.
  intros E H. apply list_ext. intros p. rewrite !nth_error_map, nth_error_upd. destruct (Nat.eqb_spec p i) as [->|]; [|reflexivity].
  assert (L : i < length l) by (apply nth_error_Some; rewrite E; discriminate). apply Nat.ltb_lt in L. rewrite L, E. cbn. rewrite H. reflexivity.
Qed.
Lemma model_models (w w' : world T) : world_same_model n w w' -> models w' = models w.
Proof.
  intros ((EA & EQ) & _ & HC & HO). unfold models. rewrite EA, EQ. f_equal; [f_equal|].
  - clear -HC. induction HC as [|a b l l' [E (EB & _ & EQ)] _ IH]; cbn; [reflexivity|]. rewrite IH, <- E, EB, EQ. reflexivity.
  - clear -HO. induction HO as [|a b l l' [E (EB & _ & EQ)] _ IH]; cbn; [reflexivity|]. rewrite IH, <- E, EB, EQ. reflexivity.
Qed.
Lemma step_models (w w' : world T) o : world_ok c n w -> op_safe c N n (ob_dims w) o -> data_or_call o = true -> step c N n w o = Ok w' -> models w' = models w.
Proof.
  intros Hw Hs Ho E. pose proof (step_wp c N n w o Hw Hs) as W. rewrite E in W. cbn [wp] in W. destruct W as (_ & _ & M).
  destruct (is_call o) eqn:Ic; [apply model_models, M; reflexivity|].
  destruct o; try discriminate Ic; try discriminate Ho; cbn [step] in E.
  - injection E as <-. reflexivity.
  - destruct (nth_error (w_ct w) i) as [[m k]|] eqn:Ei; injection E as <-; [|reflexivity]. unfold models, set_ct; cbn. erewrite map_upd; [reflexivity|exact Ei|reflexivity].
  - destruct (nth_error (w_ob w) j) as [[m k]|] eqn:Ei; injection E as <-; [|reflexivity]. unfold models, set_ob; cbn. erewrite (map_upd _ (w_ob w)); [reflexivity|exact Ei|reflexivity].
Qed.
Lemma run_models os : forall w w' : world T, world_ok c n w -> Forall (op_safe c N n (ob_dims w)) os -> forallb data_or_call os = true -> run c N n w os = Ok w' -> models w' = models w /\ world_ok c n w' /\ ob_dims w' = ob_dims w.
Proof.
  induction os as [|o os IH]; intros w w' Hw Hs Ho E; cbn [run] in E; [injection E as <-; auto|]. inversion Hs as [|? ? S1 S2]; subst. cbn [forallb] in Ho. apply andb_prop in Ho as [Ho1 Ho2]. ob E v F.
  pose proof (step_wp c N n w o Hw S1) as W. rewrite F in W. cbn [wp] in W. destruct W as (Hv & (_ & D) & _).
  destruct (IH v w' Hv ltac:(rewrite D; exact S2) Ho2 E) as (A & B & C). rewrite A, C. split; [exact (step_models w v o Hw S1 Ho1 F)|]. auto.
Qed.
Lemma models_cov (w1 w2 : world T) : world_ok c n w1 -> world_ok c n w2 -> models w1 = models w2 -> same_matrix n n (kf_P (w_kf w1)) (kf_P (w_kf w2)) -> world_cov c n w1 w2.
Proof.
  intros (_ & (V1 & C1 & O1) & _) (_ & (V2 & C2 & O2) & _) E HP. unfold models in E. injection E as EA EQ EC EO. split; [|split].
  - split; [exact V1|]. split; [exact V2|]. rewrite EA, EQ. repeat split; auto.
  - clear -C1 C2 EC. revert C2 EC. generalize (w_ct w2). induction C1 as [|a l Ha _ IH]; intros [|b l'] C2 EC; try discriminate EC; constructor; inversion C2; subst.
    + injection EC as E1 E2 E3 _. split; [exact E1|]. rewrite E1 in *. split; [assumption|]. split; [assumption|]. rewrite E2, E3. split; intros p _; reflexivity.
    + injection EC as _ _ _ EC. apply IH; assumption.
  - clear -O1 O2 EO. revert O2 EO. generalize (w_ob w2). induction O1 as [|a l Ha _ IH]; intros [|b l'] C2 EC; try discriminate EC; constructor; inversion C2; subst.
    + injection EC as E1 E2 E3 _. split; [exact E1|]. rewrite E1 in *. split; [assumption|]. split; [assumption|]. rewrite E2, E3. split; intros p _; reflexivity.
    + injection EC as _ _ _ EC. apply IH; assumption.
Qed.

Context (D : T -> Prop) (M : Z) (os : nat -> list (op T)) (w : nat -> world T).
Hypothesis HM : at_most M D.
Hypothesis HD : closed_under D N.
Hypothesis Hturn : turns c N n os w.
Hypothesis Hw0 : world_ok c n (w 0).
Hypothesis Hin0 : SpecParam.world_rel (within D) (w 0) (w 0).
Hypothesis Hsafe : forall k, Forall (op_safe c N n (ob_dims (w 0))) (os k).
Hypothesis Hcall : forall k, forallb data_or_call (os k) = true.
Hypothesis Hin : forall k, Forall (fun o => SpecParam.op_rel False (within D) o o) (os k).
Hypothesis Hsame : forall i k, Forall2 op_cov (os i) (os k).

Lemma turn_ok k : world_ok c n (w k) /\ ob_dims (w k) = ob_dims (w 0) /\ models (w k) = models (w 0) /\ SpecParam.world_rel (within D) (w k) (w k).
Proof.
  induction k as [|k (K1 & K2 & K3 & K4)]; [auto|].
  destruct (run_models (os k) (w k) (w (S k)) K1 ltac:(rewrite K2; apply Hsafe) (Hcall k) (Hturn k)) as (A & B & C).
  split; [exact B|]. split; [congruence|]. split; [congruence|].
  assert (F : Forall2 (SpecParam.op_rel False (within D)) (os k) (os k)) by (specialize (Hin k); clear -Hin; induction Hin; constructor; auto).
  pose proof (run_param False (within D) c N N HD n (os k) (os k) F (w k) (w k) K4) as R. rewrite (Hturn k) in R. destruct R as [[[] _]|R]. exact R.
Qed.
Lemma cov_in k : Forall D (kf_P (w_kf (w k))).
Proof. destruct (turn_ok k) as (_ & _ & _ & ((_ & _ & H & _) & _)). clear -H. remember (kf_P (w_kf (w k))) as l eqn:E in H at 1. clear E. revert H. generalize (kf_P (w_kf (w k))). induction l as [|a l IH]; intros l' H; inversion H as [|? b ? l2 [E Hd]]; subst; constructor; [exact Hd|apply IH; assumption]. Qed.

Lemma cycle_found : exists i p, 1 <= p /\ (Z.of_nat (i + p) <= M ^ Z.of_nat (n * n))%Z /\ same_matrix n n (kf_P (w_kf (w i))) (kf_P (w_kf (w (i + p)))).
Proof.
  destruct HM as (number & Hr & Hi). set (f := fun k => code M number (firstn (n * n) (kf_P (w_kf (w k))))).
  assert (L : forall k, length (firstn (n * n) (kf_P (w_kf (w k)))) = n * n).
  { intros k. destruct (turn_ok k) as ((_ & ((_ & _ & (V & _) & _) & _) & _) & _). rewrite firstn_length. lia. }
  assert (FD : forall k, Forall D (firstn (n * n) (kf_P (w_kf (w k))))).
  { intros k. pose proof (cov_in k) as H. rewrite <- (firstn_skipn (n * n)) in H. apply Forall_app in H. apply H. }
  assert (Rf : forall k, (0 <= f k < M ^ Z.of_nat (n * n))%Z). { intros k. pose proof (code_range D M number Hr _ (FD k)) as H. rewrite L in H. exact H. }
  destruct (pigeonhole (Z.to_nat (M ^ Z.of_nat (n * n))) (fun k => Z.to_nat (f k))) as (i & j & Lij & Lj & E).
  { intros k _. specialize (Rf k). lia. }
  exists i, (j - i). split; [lia|]. replace (i + (j - i)) with j by lia. split; [specialize (Rf 0); lia|].
  assert (Q : f i = f j) by (pose proof (Rf i); pose proof (Rf j); lia). apply (code_inj D M number Hr Hi) in Q; [|rewrite !L; reflexivity|apply FD|apply FD].
  intros p Hp. rewrite <- (firstn_skipn (n * n) (kf_P (w_kf (w i)))), <- (firstn_skipn (n * n) (kf_P (w_kf (w j)))). rewrite !nth_error_app1 by (rewrite L; exact Hp). rewrite Q. reflexivity.
Qed.
Lemma cycle_repeats i p : same_matrix n n (kf_P (w_kf (w i))) (kf_P (w_kf (w (i + p)))) -> forall t, i <= t ->
  world_cov c n (w t) (w (t + p)) /\ gains_same n (flat_map corrected (os 0)) (w (S t)) (w (S t + p)).
Proof.
  intros HP. assert (Cov : forall t, i <= t -> world_cov c n (w t) (w (t + p))).
  { intros t Ht. induction Ht as [|t Ht IH].
    - destruct (turn_ok i) as (A & _ & B & _). destruct (turn_ok (i + p)) as (A' & _ & B' & _). apply models_cov; auto. congruence.
    - destruct (turn_ok t) as ((Hn & _ & Hd) & Ed & _). cbn [plus]. 
      pose proof (run_cov c N n (w t) (w (t + p)) (os t) (os (t + p)) Hn Hd IH (Hsame _ _) ltac:(rewrite Ed; apply Hsafe) ltac:(rewrite Ed; apply Hsafe)) as R. rewrite !Hturn in R. exact R. }
  intros t Ht. split; [apply Cov, Ht|]. destruct (turn_ok t) as ((Hn & _ & Hd) & Ed & _).
  destruct (run_gains c N n (os t) (os (t + p)) Hn [] (w t) (w (t + p)) (w (S t)) (w (S (t + p))) Hd (Cov t Ht) (Hsame _ _) ltac:(rewrite Ed; apply Hsafe) ltac:(rewrite Ed; apply Hsafe) (Hturn _) (Hturn _)) as [_ G].
  { intros j m b1 b2 []. }
  refine (gains_weaken n _ _ _ _ _ G). intros j Hj. apply in_or_app. left. clear -Hj Hsame. specialize (Hsame 0 t). revert Hj Hsame. generalize (os 0) (os t). intros l l' Hj F.
  induction F as [|a b l l' H _ IH]; [exact Hj|]. cbn [flat_map] in *. apply in_app_or in Hj as [Hj|Hj]; apply in_or_app; [left|right; apply IH, Hj].
  destruct a; cbn in Hj; try contradiction; destruct b; cbn in H; try discriminate H; try (injection H as <-); try subst; exact Hj.
Qed.
Theorem cycle : exists i p, 1 <= p /\ (Z.of_nat (i + p) <= M ^ Z.of_nat (n * n))%Z /\
  forall t, i <= t -> same_matrix n n (kf_P (w_kf (w t))) (kf_P (w_kf (w (t + p)))) /\ gains_same n (flat_map corrected (os 0)) (w (S t)) (w (S t + p)).
Proof.
  destruct cycle_found as (i & p & Hp & HB & HP). exists i, p. split; [exact Hp|]. split; [exact HB|]. intros t Ht. destruct (cycle_repeats i p HP t Ht) as [((_ & _ & _ & H & _) & _) G]. auto.
Qed.
End Main.

(** ** how many numbers there are *)
Lemma at_most_le {T} M M' (D : T -> Prop) : (M <= M')%Z -> at_most M D -> at_most M' D.
Proof. intros H (f & A & B). exists f. split; [|exact B]. intros t Ht. specialize (A t Ht). lia. Qed.
Lemma fixed_count bits : (0 < bits)%Z -> at_most (2 ^ bits) (fx_in bits).
Proof.
  intros Hb. exists (fun z => (z + 2 ^ (bits - 1))%Z).
  assert (E : (2 ^ bits = 2 * 2 ^ (bits - 1))%Z) by (rewrite <- Z.pow_succ_r by lia; f_equal; lia). split; [|intros; lia].
  intros t Ht. apply fits_le in Ht. lia.
Qed.
Lemma digits_range m : (2 ^ (Z.pos (digits2_pos m) - 1) <= Z.pos m < 2 ^ Z.pos (digits2_pos m))%Z.
Proof.
  induction m as [m IH|m IH|]; cbn [digits2_pos]; [| |cbn; lia].
  - rewrite Pos2Z.inj_succ. replace (Z.succ (Z.pos (digits2_pos m)) - 1)%Z with (Z.succ (Z.pos (digits2_pos m) - 1)) by lia. rewrite !Z.pow_succ_r by lia. lia.
  - rewrite Pos2Z.inj_succ. replace (Z.succ (Z.pos (digits2_pos m)) - 1)%Z with (Z.succ (Z.pos (digits2_pos m) - 1)) by lia. rewrite !Z.pow_succ_r by lia. lia.
Qed.
Section Count.
Context (prec emax : Z).
Hypothesis Hp : (1 < prec)%Z.
Let h := (2 ^ (prec - 1))%Z.
Let emin := (3 - emax - prec)%Z.
Lemma finite_shape s m e : in_format prec emax (S754_finite s m e) ->
  (e <= emax - prec)%Z /\ ((e = emin /\ 1 <= Z.pos m < 2 * h)%Z \/ (emin < e /\ h <= Z.pos m < 2 * h)%Z).
Proof.
  unfold in_format. cbn [valid_binary]. unfold bounded, canonical_mantissa. intros H. apply andb_prop in H as [H1 H2]. apply Zeq_bool_eq in H1. apply Z.leb_le in H2. split; [exact H2|].
  unfold fexp, SpecFloat.emin in H1. pose proof (digits_range m) as R. set (d := Z.pos (digits2_pos m)) in *.
  assert (E2 : (2 * h = 2 ^ prec)%Z) by (unfold h; rewrite <- Z.pow_succ_r by lia; f_equal; lia).
  assert (Hd : (d <= prec)%Z) by lia. pose proof (Z.pow_le_mono_r 2 d prec ltac:(lia) Hd) as Hle.
  destruct (Z.eq_dec e emin) as [->|Q]; [left; split; [reflexivity|]; lia|]. right. unfold emin in *. split; [lia|]. split; [|lia].
  assert (d = prec) by lia. unfold h. congruence || (rewrite <- H; lia).
Qed.
Definition b2z (b : bool) : Z := if b then 1%Z else 0%Z.
Definition float_number (x : spec_float) : Z :=
  match x with
  | S754_zero s => b2z s
  | S754_infinity s => 2 + b2z s
  | S754_nan => 4
  | S754_finite s m e => 5 + b2z s + 2 * (if (e =? emin)%Z then Z.pos m - 1 else 2 * h - 1 + (e - emin - 1) * h + (Z.pos m - h))
  end%Z.
Lemma float_count : (prec < emax)%Z -> at_most (5 + 2 * (2 * h - 1 + (2 * emax - 3) * h)) (in_format prec emax).
Proof.
  intros He. assert (Hh : (1 <= h)%Z) by (unfold h; pose proof (Z.pow_pos_nonneg 2 (prec - 1) ltac:(lia) ltac:(lia)); lia).
  assert (Idx : forall s m e, in_format prec emax (S754_finite s m e) -> exists q, float_number (S754_finite s m e) = (5 + b2z s + 2 * q)%Z /\
    ((e = emin /\ q = Z.pos m - 1 /\ 0 <= q < 2 * h - 1) \/ (emin < e <= emax - prec /\ q = 2 * h - 1 + (e - emin - 1) * h + (Z.pos m - h) /\ 0 <= Z.pos m - h < h))%Z).
  { intros s m e H. apply finite_shape in H as [Hm [(-> & R)|(L & R)]]; cbn [float_number].
    - rewrite Z.eqb_refl. eexists. split; [reflexivity|]. left. lia.
    - destruct (Z.eqb_spec e emin); [lia|]. eexists. split; [reflexivity|]. right. lia. }
  assert (Bs : forall s, (0 <= b2z s <= 1)%Z) by (intros []; cbn; lia).
  exists float_number. split.
  - intros [s|s| |s m e] H.
    + cbn [float_number]. specialize (Bs s). nia.
    + cbn [float_number]. specialize (Bs s). nia.
    + cbn [float_number]. nia.
    + destruct (Idx s m e H) as (q & -> & [(_ & _ & R)|(R1 & -> & R2)]); specialize (Bs s); [nia|]. unfold emin in *. nia.
  - assert (Fin : forall s m e x, in_format prec emax (S754_finite s m e) -> in_format prec emax x -> float_number (S754_finite s m e) = float_number x -> S754_finite s m e = x).
    { intros s m e x H Hx E. destruct (Idx s m e H) as (q & Eq & Q). rewrite Eq in E. pose proof (Bs s) as B1.
      assert (Hq : (0 <= q)%Z) by (destruct Q as [(_ & _ & R)|(R1 & -> & R2)]; [lia|pose proof (Z.mul_nonneg_nonneg (e - emin - 1) h ltac:(lia) ltac:(lia)); lia]).
      destruct x as [t|t| |t m' e']; try (cbn [float_number] in E; try specialize (Bs t); lia).
      destruct (Idx t m' e' Hx) as (q' & Eq' & Q'). rewrite Eq' in E. pose proof (Bs t) as B2. assert (q = q') by lia. subst q'. assert (s = t) by (destruct s, t; unfold b2z in E; try reflexivity; lia). subst t.
      destruct Q as [(E1 & E2 & R)|(R1 & E2 & R2)], Q' as [(E1' & E2' & R')|(R1' & E2' & R2')].
      - assert (m = m') by lia. congruence.
      - exfalso. nia.
      - exfalso. nia.
      - assert (e = e') by nia. subst e'. assert (m = m') by lia. congruence. }
    intros a b Ha Hb E. destruct a as [s|s| |s m e]; [| | |exact (Fin s m e b Ha Hb E)]; (destruct b as [t|t| |t m' e']; [| | |symmetry; exact (Fin t m' e' _ Hb Ha (eq_sym E))]);
      cbn [float_number] in E; try (destruct s); try (destruct t); unfold b2z in E; try reflexivity; lia.
Qed.
End Count.
Lemma f32_count : at_most (2 ^ 32) (in_format 24 128).
Proof. eapply at_most_le; [|apply (float_count 24 128); lia]. vm_compute. discriminate. Qed.
Lemma f64_count : at_most (2 ^ 64) (in_format 53 1024).
Proof. eapply at_most_le; [|apply (float_count 53 1024); lia]. vm_compute. discriminate. Qed.

(** ** floats: the turns never panic, so the sequence of states exists *)
Lemma never_turns {T} (c : cfg) (N : num T) n (os : nat -> list (op T)) (w0 : world T) : never_panics N -> world_ok c n w0 -> (forall k, Forall (op_safe c N n (ob_dims w0)) (os k)) ->
  exists w, w 0 = w0 /\ turns c N n os w.
Proof.
  intros HN Hw Hs. set (next := fun k v => match run c N n v (os k) with Ok v' => v' | _ => v end).
  set (w := fix w k := match k with 0 => w0 | S k => next k (w k) end). exists w. split; [reflexivity|].
  assert (G : forall k, world_ok c n (w k) /\ ob_dims (w k) = ob_dims w0 /\ run c N n (w k) (os k) = Ok (w (S k))).
  { assert (St : forall k, world_ok c n (w k) -> ob_dims (w k) = ob_dims w0 -> run c N n (w k) (os k) = Ok (w (S k)) /\ world_ok c n (w (S k)) /\ ob_dims (w (S k)) = ob_dims w0).
    { intros k K1 K2. pose proof (run_wp c N n (w k) (os k) K1 ltac:(rewrite K2; apply Hs)) as W. change (w (S k)) with (next k (w k)). unfold next.
      destruct (run c N n (w k) (os k)) as [v|e]; cbn [wp] in W; [|destruct W as [_ W]; contradiction]. destruct W as (A & (_ & B) & _). split; [reflexivity|]. split; [exact A|congruence]. }
    assert (In : forall k, world_ok c n (w k) /\ ob_dims (w k) = ob_dims w0) by (induction k as [|k [K1 K2]]; [split; [exact Hw|reflexivity]|]; destruct (St k K1 K2) as (_ & A & B); auto).
    intros k. destruct (In k) as [A B]. split; [exact A|]. split; [exact B|]. apply (St k A B). }
  intros k. apply G.
Qed.
Lemma float_cycle (c : cfg) prec emax sz bits n (os : nat -> list (op spec_float)) (w0 : world spec_float) : format_ok prec emax -> at_most (2 ^ bits) (in_format prec emax) -> world_ok c n w0 ->
  SpecParam.world_rel (within (in_format prec emax)) w0 w0 -> (forall k, Forall (op_safe c (sf_num prec emax sz) n (ob_dims w0)) (os k)) -> (forall k, forallb data_or_call (os k) = true) ->
  (forall k, Forall (fun o => SpecParam.op_rel False (within (in_format prec emax)) o o) (os k)) -> (forall i k, Forall2 op_cov (os i) (os k)) ->
  exists w, w 0 = w0 /\ turns c (sf_num prec emax sz) n os w /\ exists i p, 1 <= p /\ (Z.of_nat (i + p) <= (2 ^ bits) ^ Z.of_nat (n * n))%Z /\
  forall t, i <= t -> same_matrix n n (kf_P (w_kf (w t))) (kf_P (w_kf (w (t + p)))) /\ gains_same n (flat_map corrected (os 0)) (w (S t)) (w (S t + p)).
Proof.
  intros Hf HM Hw Hin Hs Hc Ho Hsame. destruct (never_turns c (sf_num prec emax sz) n os w0 (sf_never_panics prec emax sz) Hw Hs) as (w & E & Ht). exists w. split; [exact E|]. split; [exact Ht|].
  refine (cycle c (sf_num prec emax sz) n (in_format prec emax) _ os w HM (float_closed prec emax sz Hf) Ht _ _ _ Hc Ho Hsame); rewrite E; assumption.
Qed.
Lemma f32_cycle (c : cfg) sz n (os : nat -> list (op spec_float)) (w0 : world spec_float) : world_ok c n w0 ->
  SpecParam.world_rel (within (in_format 24 128)) w0 w0 -> (forall k, Forall (op_safe c (f32_num sz) n (ob_dims w0)) (os k)) -> (forall k, forallb data_or_call (os k) = true) ->
  (forall k, Forall (fun o => SpecParam.op_rel False (within (in_format 24 128)) o o) (os k)) -> (forall i k, Forall2 op_cov (os i) (os k)) ->
  exists w, w 0 = w0 /\ turns c (f32_num sz) n os w /\ exists i p, 1 <= p /\ (Z.of_nat (i + p) <= (2 ^ 32) ^ Z.of_nat (n * n))%Z /\
  forall t, i <= t -> same_matrix n n (kf_P (w_kf (w t))) (kf_P (w_kf (w (t + p)))) /\ gains_same n (flat_map corrected (os 0)) (w (S t)) (w (S t + p)).
Proof. apply float_cycle; [split; reflexivity|exact f32_count]. Qed.
Lemma f64_cycle (c : cfg) sz n (os : nat -> list (op spec_float)) (w0 : world spec_float) : world_ok c n w0 ->
  SpecParam.world_rel (within (in_format 53 1024)) w0 w0 -> (forall k, Forall (op_safe c (f64_num sz) n (ob_dims w0)) (os k)) -> (forall k, forallb data_or_call (os k) = true) ->
  (forall k, Forall (fun o => SpecParam.op_rel False (within (in_format 53 1024)) o o) (os k)) -> (forall i k, Forall2 op_cov (os i) (os k)) ->
  exists w, w 0 = w0 /\ turns c (f64_num sz) n os w /\ exists i p, 1 <= p /\ (Z.of_nat (i + p) <= (2 ^ 64) ^ Z.of_nat (n * n))%Z /\
  forall t, i <= t -> same_matrix n n (kf_P (w_kf (w t))) (kf_P (w_kf (w (t + p)))) /\ gains_same n (flat_map corrected (os 0)) (w (S t)) (w (S t + p)).
Proof. apply float_cycle; [split; reflexivity|exact f64_count]. Qed.
Lemma fixed_cycle (c : cfg) bits frac oc da n (os : nat -> list (op Z)) (w : nat -> world Z) : (0 <= frac)%Z -> (frac < bits - 1)%Z -> turns c (fx_num bits frac oc da) n os w -> world_ok c n (w 0) ->
  SpecParam.world_rel (within (fx_in bits)) (w 0) (w 0) -> (forall k, Forall (op_safe c (fx_num bits frac oc da) n (ob_dims (w 0))) (os k)) -> (forall k, forallb data_or_call (os k) = true) ->
  (forall k, Forall (fun o => SpecParam.op_rel False (within (fx_in bits)) o o) (os k)) -> (forall i k, Forall2 op_cov (os i) (os k)) ->
  exists i p, 1 <= p /\ (Z.of_nat (i + p) <= (2 ^ bits) ^ Z.of_nat (n * n))%Z /\
  forall t, i <= t -> same_matrix n n (kf_P (w_kf (w t))) (kf_P (w_kf (w (t + p)))) /\ gains_same n (flat_map corrected (os 0)) (w (S t)) (w (S t + p)).
Proof. intros H1 H2 Ht Hw Hin Hs Hc Ho Hsame. exact (cycle c _ n (fx_in bits) _ os w (fixed_count bits ltac:(lia)) (fixed_closed bits frac oc da H1 H2) Ht Hw Hin Hs Hc Ho Hsame). Qed.
