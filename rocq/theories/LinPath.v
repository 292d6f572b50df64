(** * Bounding linear recursions by propagating functionals backwards *)
From Coq Require Import ZArith QArith Qabs Lia Lqa List.
From Verif Require Import SpecFixedGain FixedRange FixedStable FixedGain.
Import ListNotations.
Open Scope Q_scope.

Section Lin.
Variables (n m : nat) (F K : nat -> nat -> nat -> Q) (e : nat -> nat -> Q) (Zb B x0 : nat -> Q) (rnd : Q -> Q).
Definition at_ (l : list Q) (i : nat) : Q := nth i l 0.
Definition rowF (t : nat) (r : list Q) : list Q := map (fun k => Qred (qsum n (fun i => at_ r i * F t i k))) (seq 0 n).
Definition stage (t : nat) (r rF p : list Q) : Q :=
  qsum m (fun j => Qabs (qsum n (fun i => at_ r i * K t i j)) * Zb j) + qsum n (fun i => Qabs (at_ r i) * e t i) + qsum n (fun k => Qabs (at_ rF k - at_ p k) * B k).
Fixpoint fbound (d t : nat) (r : list Q) : Q :=
  match d with
  | O => Qred (qsum n (fun i => Qabs (at_ r i) * B i))
  | S d' => match t with
    | O => Qred (Qabs (qsum n (fun i => at_ r i * x0 i)))
    | S t' => let rF := rowF t' r in let p := map rnd rF in Qred (stage t' r rF p + fbound d' t' p)
    end
  end.

Lemma at_rowF t r k : (k < n)%nat -> at_ (rowF t r) k == qsum n (fun i => at_ r i * F t i k).
Proof.
  intros Hk. unfold at_ at 1, rowF. rewrite nth_indep with (d' := (fun k => Qred (qsum n (fun i => at_ r i * F t i k))) 0%nat) by (rewrite map_length, seq_length; auto).
  rewrite (map_nth (fun k => Qred (qsum n (fun i => at_ r i * F t i k)))), seq_nth by auto. cbn [Nat.add]. apply Qred_correct.
Qed.

Lemma qsum_eq N f g : (forall k, (k < N)%nat -> f k == g k) -> qsum N f == qsum N g.
Proof. intros H. apply Qle_antisym; apply qsum_le; intros k Hk; rewrite (H k Hk); apply Qle_refl. Qed.
Lemma qsum_add N f g : qsum N (fun k => f k + g k) == qsum N f + qsum N g.
Proof. induction N as [|N IH]; cbn [qsum]; [reflexivity|]. rewrite IH. ring. Qed.
Lemma qsum_zero N : qsum N (fun _ => 0) == 0.
Proof. induction N as [|N IH]; cbn [qsum]; [reflexivity|]. rewrite IH. ring. Qed.
Lemma qsum_scal_l N f b : qsum N (fun k => b * f k) == b * qsum N f.
Proof. induction N as [|N IH]; cbn [qsum]; [ring|]. rewrite IH. ring. Qed.
Lemma qsum_swap N M (f : nat -> nat -> Q) : qsum N (fun i => qsum M (fun j => f i j)) == qsum M (fun j => qsum N (fun i => f i j)).
Proof.
  induction N as [|N IH]; cbn [qsum]; [symmetry; apply qsum_zero|]. rewrite IH, <- qsum_add. apply qsum_eq. intros. reflexivity.
Qed.
(** r . (M v) = (r M) . v *)
Lemma qsum_row N M (r v : nat -> Q) (A : nat -> nat -> Q) : qsum N (fun i => r i * qsum M (fun k => A i k * v k)) == qsum M (fun k => qsum N (fun i => r i * A i k) * v k).
Proof.
  transitivity (qsum N (fun i => qsum M (fun k => r i * A i k * v k))).
  - apply qsum_eq. intros i Hi. rewrite <- qsum_scal_l. apply qsum_eq. intros k Hk. ring.
  - rewrite qsum_swap. apply qsum_eq. intros k Hk. apply qsum_scal.
Qed.

(** ** soundness *)
Variables (x z : nat -> nat -> Q) (T : nat).
Hypothesis Hx0 : forall i, (i < n)%nat -> x 0%nat i == x0 i.
Hypothesis Hz : forall t j, (t < T)%nat -> (j < m)%nat -> Qabs (z t j) <= Zb j.
Hypothesis Hstep : forall t i, (t < T)%nat -> (i < n)%nat -> Qabs (x (S t) i - (qsum n (fun k => F t i k * x t k) + qsum m (fun j => K t i j * z t j))) <= e t i.

Lemma dotB N (f g b : nat -> Q) : (forall k, (k < N)%nat -> Qabs (g k) <= b k) -> Qabs (qsum N (fun k => f k * g k)) <= qsum N (fun k => Qabs (f k) * b k).
Proof. intros H. eapply Qle_trans; [apply qsum_abs|]. apply (qdot_bd N f g b H). Qed.

Lemma stage_sound t r p : (t < T)%nat -> (forall k, (k < n)%nat -> Qabs (x t k) <= B k) ->
  Qabs (qsum n (fun i => at_ r i * x (S t) i)) <= stage t r (rowF t r) p + Qabs (qsum n (fun k => at_ p k * x t k)).
Proof.
  intros Ht HB. unfold stage.
  set (u := fun i => qsum n (fun k => F t i k * x t k) + qsum m (fun j => K t i j * z t j)).
  pose proof (qdot_diff n (fun i => at_ r i) (fun i => x (S t) i) u (fun i => e t i) (fun i Hi => Hstep t i Ht Hi)) as D1. cbv beta in D1.
  assert (D2 : qsum n (fun i => at_ r i * u i) == qsum n (fun k => at_ (rowF t r) k * x t k) + qsum m (fun j => qsum n (fun i => at_ r i * K t i j) * z t j)).
  { unfold u. transitivity (qsum n (fun i => at_ r i * qsum n (fun k => F t i k * x t k) + at_ r i * qsum m (fun j => K t i j * z t j))); [apply qsum_eq; intros; ring|].
    rewrite qsum_add, !qsum_row. apply Qplus_comp; [|reflexivity]. apply qsum_eq. intros k Hk. rewrite (at_rowF t r k Hk). reflexivity. }
  pose proof (dotB m (fun j => qsum n (fun i => at_ r i * K t i j)) (z t) Zb (fun j Hj => Hz t j Ht Hj)) as D3. cbv beta in D3.
  assert (D4 : qsum n (fun k => at_ (rowF t r) k * x t k) == qsum n (fun k => (at_ (rowF t r) k - at_ p k) * x t k) + qsum n (fun k => at_ p k * x t k)).
  { rewrite <- qsum_add. apply qsum_eq. intros; ring. }
  pose proof (dotB n (fun k => at_ (rowF t r) k - at_ p k) (x t) B HB) as D5. cbv beta in D5.
  pose proof (Qabs_bd (qsum n (fun k => at_ p k * x t k))) as D6.
  apply Qabs_le_iff in D1. apply Qabs_le_iff in D3. apply Qabs_le_iff in D5. rewrite D2, D4 in D1. clear D2 D4. apply Qabs_le_iff. cbv beta in *.
  set (a := qsum n (fun i => at_ r i * x (S t) i)) in *. set (b1 := qsum n (fun i => Qabs (at_ r i) * e t i)) in *. set (b2 := qsum n (fun k => (at_ (rowF t r) k - at_ p k) * x t k)) in *.
  set (b3 := qsum n (fun k => at_ p k * x t k)) in *. set (b4 := qsum m (fun j => qsum n (fun i => at_ r i * K t i j) * z t j)) in *. clearbody a b1 b2 b3 b4. split; lra.
Qed.

Lemma fbound_sound d : forall t r, (t <= T)%nat -> (forall s k, (s < t)%nat -> (k < n)%nat -> Qabs (x s k) <= B k) -> (d = 0%nat -> forall k, (k < n)%nat -> Qabs (x t k) <= B k) ->
  Qabs (qsum n (fun i => at_ r i * x t i)) <= fbound d t r.
Proof.
  induction d as [|d IH]; intros t r Ht HB H0; cbn [fbound]; cbv zeta.
  - rewrite Qred_correct. apply (dotB n (fun i => at_ r i) (x t) B). exact (H0 eq_refl).
  - destruct t as [|t].
    + rewrite Qred_correct. apply Qle_lteq. right. apply Qabs_wd, qsum_eq. intros i Hi. rewrite (Hx0 i Hi). reflexivity.
    + rewrite Qred_correct. eapply Qle_trans; [apply (stage_sound t r (map rnd (rowF t r)))|]; [lia|intros; apply HB; auto; lia|].
      apply Qplus_le_compat; [apply Qle_refl|]. apply IH; [lia|intros; apply HB; auto; lia|]. intros _ k Hk. apply HB; auto; lia.
Qed.

(** ** staying within B *)
Variables (d : nat).
Definition unit_ (i : nat) : list Q := map (fun k => if (k =? i)%nat then 1 else 0) (seq 0 n).
Lemma unit_at i k : (k < n)%nat -> at_ (unit_ i) k = if (k =? i)%nat then 1 else 0.
Proof.
  intros Hk. unfold at_, unit_. rewrite nth_indep with (d' := (fun k => if (k =? i)%nat then 1 else 0) 0%nat) by (rewrite map_length, seq_length; auto).
  rewrite (map_nth (fun k => if (k =? i)%nat then 1 else 0)), seq_nth by auto. reflexivity.
Qed.
Lemma unit_dot i N v : (i < N)%nat -> qsum N (fun k => (if (k =? i)%nat then 1 else 0) * v k) == v i.
Proof.
  induction N as [|N IH]; intros Hi; [lia|]. cbn [qsum]. destruct (Nat.eq_dec i N) as [->|].
  - rewrite Nat.eqb_refl. assert (E : qsum N (fun k => (if (k =? N)%nat then 1 else 0) * v k) == 0).
    { rewrite <- (qsum_zero N). apply qsum_eq. intros k Hk. destruct (Nat.eqb_spec k N); [lia|ring]. }
    rewrite E. ring.
  - rewrite IH by lia. destruct (Nat.eqb_spec N i); [lia|ring].
Qed.
Lemma stays_within : (1 <= d)%nat -> (forall t i, (t <= T)%nat -> (i < n)%nat -> fbound d t (unit_ i) <= B i) ->
  forall t i, (t <= T)%nat -> (i < n)%nat -> Qabs (x t i) <= B i.
Proof.
  intros Hd HC t. induction t as [t IH] using (well_founded_induction lt_wf). intros i Ht Hi.
  eapply Qle_trans; [|apply (HC t i Ht Hi)].
  assert (E : qsum n (fun k => at_ (unit_ i) k * x t k) == x t i).
  { rewrite <- (unit_dot i n (x t) Hi). apply qsum_eq. intros k Hk. rewrite unit_at by auto. reflexivity. }
  rewrite <- E. apply fbound_sound; [auto|intros; apply IH; auto; lia|lia].
Qed.
End Lin.

(** constant from some time on: then so is the bound *)
Lemma fbound_const n m F K e Zb B x0 rnd T0 : (forall t, (T0 <= t)%nat -> F t = F T0 /\ K t = K T0 /\ e t = e T0) ->
  forall d t t' r, (T0 + d <= t)%nat -> (T0 + d <= t')%nat -> fbound n m F K e Zb B x0 rnd d t r = fbound n m F K e Zb B x0 rnd d t' r.
Proof.
  intros H. induction d as [|d IH]; intros t t' r Ht Ht'; cbn [fbound]; [reflexivity|]. destruct t as [|t]; [lia|]. destruct t' as [|t']; [lia|].
  assert (EF : F t = F t') by (rewrite (proj1 (H t ltac:(lia))), (proj1 (H t' ltac:(lia))); reflexivity).
  assert (EK : K t = K t') by (rewrite (proj1 (proj2 (H t ltac:(lia)))), (proj1 (proj2 (H t' ltac:(lia)))); reflexivity).
  assert (EE : e t = e t') by (rewrite (proj2 (proj2 (H t ltac:(lia)))), (proj2 (proj2 (H t' ltac:(lia)))); reflexivity).
  assert (ER : rowF n F t r = rowF n F t' r) by (unfold rowF; rewrite EF; reflexivity). rewrite ER. cbv zeta. unfold stage. rewrite EK, EE. rewrite (IH t t') by lia. reflexivity.
Qed.

(** ** explicit weights: what a functional of the state after T turns owes to the initial state, to each reading, and to rounding *)
Section Weights.
Variables (n m : nat) (F K : nat -> nat -> nat -> Q) (e : nat -> nat -> Q).
(** the functional pulled back to time 0 *)
Fixpoint pull (t : nat) (r : list Q) : list Q := match t with O => r | S t' => pull t' (rowF n F t' r) end.
(** the weight of each reading, oldest first *)
Fixpoint weigh (t : nat) (r : list Q) : list (list Q) :=
  match t with O => [] | S t' => weigh t' (rowF n F t' r) ++ [map (fun j => Qred (qsum n (fun i => at_ r i * K t' i j))) (seq 0 m)] end.
Fixpoint slack (t : nat) (r : list Q) : Q := match t with O => 0 | S t' => Qred (qsum n (fun i => Qabs (at_ r i) * e t' i) + slack t' (rowF n F t' r)) end.

Lemma weigh_len t : forall r, length (weigh t r) = t.
Proof. induction t as [|t IH]; intros r; cbn; [reflexivity|]. rewrite app_length, IH. cbn. lia. Qed.
Lemma at_map N (g : nat -> Q) j : (j < N)%nat -> at_ (map g (seq 0 N)) j = g j.
Proof. intros Hj. unfold at_. rewrite nth_indep with (d' := g 0%nat) by (rewrite map_length, seq_length; auto). rewrite map_nth, seq_nth by auto. reflexivity. Qed.

Variables (x z : nat -> nat -> Q) (T : nat).
Hypothesis Hstep : forall t i, (t < T)%nat -> (i < n)%nat -> Qabs (x (S t) i - (qsum n (fun k => F t i k * x t k) + qsum m (fun j => K t i j * z t j))) <= e t i.
Lemma weigh_sound t : forall r, (t <= T)%nat ->
  Qabs (qsum n (fun i => at_ r i * x t i) - (qsum n (fun i => at_ (pull t r) i * x 0%nat i) + qsum t (fun s => qsum m (fun j => at_ (nth s (weigh t r) []) j * z s j)))) <= slack t r.
Proof.
  induction t as [|t IH]; intros r Ht.
  - cbn [pull weigh slack qsum]. apply Qabs_le_iff. lra.
  - set (u := fun i => qsum n (fun k => F t i k * x t k) + qsum m (fun j => K t i j * z t j)).
    pose proof (qdot_diff n (fun i => at_ r i) (fun i => x (S t) i) u (fun i => e t i) (fun i Hi => Hstep t i Ht Hi)) as D1. cbv beta in D1.
    assert (D2 : qsum n (fun i => at_ r i * u i) == qsum n (fun k => at_ (rowF n F t r) k * x t k) + qsum m (fun j => qsum n (fun i => at_ r i * K t i j) * z t j)).
    { unfold u. transitivity (qsum n (fun i => at_ r i * qsum n (fun k => F t i k * x t k) + at_ r i * qsum m (fun j => K t i j * z t j))); [apply qsum_eq; intros; ring|].
      rewrite qsum_add, !qsum_row. apply Qplus_comp; [|reflexivity]. apply qsum_eq. intros k Hk. rewrite (at_rowF n F t r k Hk). reflexivity. }
    specialize (IH (rowF n F t r) ltac:(lia)). cbn [pull weigh slack]. rewrite Qred_correct. cbn [qsum].
    assert (E1 : qsum t (fun s => qsum m (fun j => at_ (nth s (weigh t (rowF n F t r) ++ [map (fun j => Qred (qsum n (fun i => at_ r i * K t i j))) (seq 0 m)]) []) j * z s j)) ==
      qsum t (fun s => qsum m (fun j => at_ (nth s (weigh t (rowF n F t r)) []) j * z s j))).
    { apply qsum_eq. intros s Hs. rewrite app_nth1 by (rewrite weigh_len; exact Hs). reflexivity. }
    rewrite E1. rewrite app_nth2 by (rewrite weigh_len; lia). rewrite weigh_len, Nat.sub_diag. cbn [nth].
    assert (E2 : qsum m (fun j => at_ (map (fun j => Qred (qsum n (fun i => at_ r i * K t i j))) (seq 0 m)) j * z t j) == qsum m (fun j => qsum n (fun i => at_ r i * K t i j) * z t j)).
    { apply qsum_eq. intros j Hj. rewrite at_map by exact Hj. rewrite Qred_correct. reflexivity. }
    rewrite E2. apply Qabs_le_iff in D1. apply Qabs_le_iff in IH. rewrite D2 in D1. apply Qabs_le_iff. clear E1 E2 D2 Hstep. lra.
Qed.
End Weights.

(** the same with the functional rounded after each step, for long runs; B bounds the states *)
Section RoundedWeights.
Variables (n m : nat) (F K : nat -> nat -> nat -> Q) (e : nat -> nat -> Q) (B : nat -> Q) (rnd : Q -> Q).
Definition rowR (t : nat) (r : list Q) : list Q := map rnd (rowF n F t r).
Fixpoint pullR (t : nat) (r : list Q) : list Q := match t with O => r | S t' => pullR t' (rowR t' r) end.
(** the sum of the sizes of the weights of reading j *)
Fixpoint weighR (t : nat) (r : list Q) (j : nat) : Q :=
  match t with O => 0 | S t' => Qred (Qabs (qsum n (fun i => at_ r i * K t' i j)) + weighR t' (rowR t' r) j) end.
Fixpoint slackR (t : nat) (r : list Q) : Q :=
  match t with O => 0 | S t' => Qred (qsum n (fun i => Qabs (at_ r i) * e t' i) + qsum n (fun k => Qabs (at_ (rowF n F t' r) k - at_ (rowR t' r) k) * B k) + slackR t' (rowR t' r)) end.
Variables (x z : nat -> nat -> Q) (T : nat) (W : nat -> Q).
Hypothesis Hstep : forall t i, (t < T)%nat -> (i < n)%nat -> Qabs (x (S t) i - (qsum n (fun k => F t i k * x t k) + qsum m (fun j => K t i j * z t j))) <= e t i.
Hypothesis HB : forall t k, (t < T)%nat -> (k < n)%nat -> Qabs (x t k) <= B k.
Hypothesis HW : forall t j, (t < T)%nat -> (j < m)%nat -> Qabs (z t j) <= W j.
Lemma weighR_sound t : forall r, (t <= T)%nat ->
  Qabs (qsum n (fun i => at_ r i * x t i)) <= Qabs (qsum n (fun i => at_ (pullR t r) i * x 0%nat i)) + qsum m (fun j => weighR t r j * W j) + slackR t r.
Proof.
  induction t as [|t IH]; intros r Ht.
  - cbn [pullR slackR weighR]. assert (E : qsum m (fun j => 0 * W j) == 0) by (rewrite <- (qsum_zero m); apply qsum_eq; intros; ring). rewrite E. lra.
  - pose proof (stage_sound n m F K e W B x z T HW Hstep t r (rowR t r) Ht (fun k Hk => HB t k Ht Hk)) as S1. specialize (IH (rowR t r) ltac:(lia)). cbn [pullR weighR slackR]. rewrite Qred_correct.
    assert (E : qsum m (fun j => Qred (Qabs (qsum n (fun i => at_ r i * K t i j)) + weighR t (rowR t r) j) * W j) ==
      qsum m (fun j => Qabs (qsum n (fun i => at_ r i * K t i j)) * W j) + qsum m (fun j => weighR t (rowR t r) j * W j)).
    { rewrite <- qsum_add. apply qsum_eq. intros j Hj. rewrite Qred_correct. ring. }
    rewrite E. unfold stage in S1. lra.
Qed.
End RoundedWeights.
