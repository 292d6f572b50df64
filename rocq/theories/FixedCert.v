(** * Checking by computation that a fixed-point filter can run for ever *)
From Coq Require Import ZArith QArith Qabs Qround Lia Lqa Psatz.
From Verif Require Import Prelude Spec SpecBits Matrix Filter SpecFilter Wp Kernels FilterTwo HistGen HistTwo NumSim FixedNum SpecFixed SpecFixedRange SpecFixedGain BitsProof Defined FixedProof FixedRange FixedSteps FixedStable FixedGain LinPath ZPath FixedRun FloatWit FixedWit.
Open Scope Q_scope.

Section Affine.
Variables (frac : Z) (n m : nat) (A H : nat -> nat -> Q).
(** (I - K H) A *)
Definition closed (K : nat -> nat -> Q) (i k : nat) : Q := A i k - qsum m (fun j => K i j * qsum n (fun l => H j l * A l k)).
Lemma qsum_sub N f g : qsum N (fun k => f k - g k) == qsum N f - qsum N g.
Proof. induction N as [|N IH]; cbn [qsum]; [reflexivity|]. rewrite IH. ring. Qed.
Lemma turn_affine K x z i : q_turn_state n m A H K x z i == qsum n (fun k => closed K i k * x k) + qsum m (fun j => K i j * z j).
Proof.
  unfold q_turn_state, q_predicted, closed.
  assert (E1 : qsum n (fun k => (A i k - qsum m (fun j => K i j * qsum n (fun l => H j l * A l k))) * x k) ==
    qsum n (fun k => A i k * x k) - qsum n (fun k => qsum m (fun j => K i j * qsum n (fun l => H j l * A l k)) * x k)).
  { rewrite <- qsum_sub. apply qsum_eq. intros. ring. }
  rewrite E1. clear E1.
  assert (E2 : qsum n (fun k => qsum m (fun j => K i j * qsum n (fun l => H j l * A l k)) * x k) == qsum m (fun j => K i j * qsum n (fun l => H j l * qsum n (fun k => A l k * x k)))).
  { rewrite <- qsum_row. apply qsum_eq. intros j Hj. apply Qmult_comp; [reflexivity|]. rewrite qsum_row. reflexivity. }
  rewrite E2. clear E2.
  assert (E3 : qsum m (fun j => K i j * (z j - qsum n (fun l => H j l * qsum n (fun k => A l k * x k)))) ==
    qsum m (fun j => K i j * z j) - qsum m (fun j => K i j * qsum n (fun l => H j l * qsum n (fun k => A l k * x k)))).
  { rewrite <- qsum_sub. apply qsum_eq. intros. ring. }
  rewrite E3. ring.
Qed.
End Affine.

Section Cert.
Variables (bits frac : Z) (n m : nat) (f : kalman Z) (o : observation Z).
Notation NC := (fx_num bits frac true true).
Notation qc := (qcell frac).
Notation A := (qc n (kf_A f)). Notation H := (qc n (ob_H o)).

(** a turn of a reference run, in the smallest configuration *)
Definition ref_turn (g : kalman Z) : option (kalman Z * list Z) :=
  match predict tiny NC n g with
  | Ok g1 => match correct tiny NC n m o g1 with Ok (r', g') => Some (g', ob_K r') | Panic _ => None end
  | Panic _ => None
  end.
(** the states before each of T turns and the gains of the turns; the last state *)
Fixpoint ref_path (T : nat) (g : kalman Z) : option (list (kalman Z * list Z) * kalman Z) :=
  match T with
  | O => Some ([], g)
  | S T' => match ref_turn g with
    | None => None
    | Some (g', K) => match ref_path T' g' with None => None | Some (l, gE) => Some ((g, K) :: l, gE) end
    end
  end.
Definition same_bools (l : list bool) : bool := forallb (fun b => b) l.

Variables (T0 d : nat) (path : list (kalman Z * list Z)) (gE : kalman Z) (Kinf : list Z).
Hypothesis HP : ref_path T0 (with_x f (repeat 0%Z n)) = Some (path, gE).
Hypothesis HE : ref_turn gE = Some (gE, Kinf).
Definition gain (t : nat) : list Z := snd (nth t path (gE, Kinf)).
Definition gst (t : nat) : kalman Z := fst (nth t path (gE, Kinf)).

Lemma ref_path_len T : forall g l e, ref_path T g = Some (l, e) -> length l = T.
Proof.
  induction T as [|T IH]; cbn; intros g l e E; [injection E as <- <-; reflexivity|]. destruct (ref_turn g) as [(g' & K)|]; [|discriminate].
  destruct (ref_path T g') as [(l' & e')|] eqn:E'; [|discriminate]. injection E as <- <-. cbn. f_equal. eauto.
Qed.
Lemma ref_path_step T : forall g l, ref_path T g = Some (l, gE) -> forall t, ref_turn (fst (nth t l (gE, Kinf))) = Some (fst (nth (S t) l (gE, Kinf)), snd (nth t l (gE, Kinf))) /\ fst (nth 0 l (gE, Kinf)) = g.
Proof.
  induction T as [|T IH]; cbn [ref_path]; intros g l E t.
  - injection E as <- <-. destruct t; cbn; auto.
  - destruct (ref_turn g) as [(g' & K)|] eqn:EG; [|discriminate]. destruct (ref_path T g') as [(l' & e')|] eqn:E'; [|discriminate]. injection E as <- ->.
    destruct t as [|t]; cbn [nth fst snd]; [|split; [apply (IH g' l' E' t)|reflexivity]]. split; [|reflexivity]. rewrite EG. f_equal. f_equal. symmetry. apply (IH g' l' E' 0%nat).
Qed.
Lemma gain_after t : (T0 <= t)%nat -> gain t = Kinf.
Proof. intros Ht. unfold gain. rewrite nth_overflow; [reflexivity|]. rewrite (ref_path_len _ _ _ _ HP). exact Ht. Qed.

Lemma cert_gains c : (255 <= usize_max c)%nat -> kf_valid c n f -> ob_valid c n m o -> fx_gains c bits frac n m f o gain.
Proof.
  intros Hc Vf Vo. exists gst, (fun _ => o). split.
  - unfold gst. rewrite (proj2 (ref_path_step T0 _ _ HP 0)). pose proof Vf as (V1 & V2 & V3 & V4 & V5 & V6).
    assert (VX : valid c n 1 (repeat 0%Z n)). { destruct V2 as (L & F). split; [rewrite repeat_length; lia|]. red. red in F. rewrite repeat_length. lia. }
    split; [exact Vf|]. split; [unfold kf_valid, with_x; cbn; tauto|]. cbn. repeat split; intros; reflexivity.
  - intros t. split; [split; [exact Vo|split; [exact Vo|repeat split; intros; reflexivity]]|].
    pose proof (proj1 (ref_path_step T0 _ _ HP t)) as E. unfold gst, gain, ref_turn in *.
    destruct (predict tiny NC n (fst (nth t path (gE, Kinf)))) as [g1|] eqn:E1; [|discriminate].
    destruct (correct tiny NC n m o g1) as [(r' & g')|] eqn:E2; [|discriminate]. injection E as EG EK.
    exists g1, r'. split; [apply (predict_tinyZ c Hc), E1|]. split; [|exact EK]. rewrite <- EG. apply (correct_tinyZ c Hc), E2.
Qed.

Variables (Zl Bl : list Q).
Notation Zb := (fun j => nth j Zl 0). Notation B := (fun i => nth i Bl 0).
Definition all_lt (N : nat) (p : nat -> bool) : bool := forallb p (seq 0 N).
Lemma all_lt_spec N p : all_lt N p = true -> forall i, (i < N)%nat -> p i = true.
Proof. intros E i Hi. unfold all_lt in E. rewrite forallb_forall in E. apply E, in_seq. lia. Qed.
Definition qlt_bool (a b : Q) : bool := negb (Qle_bool b a).
Definition room_ok (K : list Z) : bool :=
  all_lt n (fun i => Qle_bool (q_big_prediction frac n A B i + qsum m (fun j => Qabs (qc m K i j) * q_big_innovation frac n A H B Zb j) + qn m * ulp frac) (fx_top bits frac)) &&
  all_lt m (fun j => qlt_bool (q_big_innovation frac n A H B Zb j) (fx_top bits frac)).
Lemma room_ok_spec K : room_ok K = true -> q_turn_room bits frac n m A H (qc m K) B Zb.
Proof.
  intros E. apply andb_prop in E. destruct E as (E1 & E2). split.
  - intros i Hi. apply Qle_bool_iff. apply (all_lt_spec _ _ E1 i Hi).
  - intros j Hj. pose proof (all_lt_spec _ _ E2 j Hj) as E. cbv beta in E. unfold qlt_bool in E. apply Qnot_le_lt. intros L. apply Qle_bool_iff in L. rewrite L in E. discriminate.
Qed.
Hypothesis HR : forallb room_ok (Kinf :: map snd path) = true.
Lemma cert_room t : q_turn_room bits frac n m A H (qc m (gain t)) B Zb.
Proof.
  apply room_ok_spec. rewrite forallb_forall in HR. apply HR. unfold gain. destruct (Nat.lt_ge_cases t (length path)) as [L|L].
  - right. apply in_map. apply nth_In, L.
  - left. rewrite nth_overflow by exact L. reflexivity.
Qed.

(** integer tables of the closed loop, the gain and a bound of the rounding error *)
Variables (q E : positive) (tl : list ztab) (te : ztab).
Definition tab_ok (K : list Z) (T : ztab) : bool :=
  shape_ok n m T && all_lt n (fun i => all_lt n (fun k => Qeq_bool (zF q T i k) (closed n m A H (qc m K) i k))) && all_lt n (fun i => all_lt m (fun j => Qeq_bool (zK q T i j) (qc m K i j))) &&
  all_lt n (fun i => Qle_bool (q_turn_rounding frac n m H (qc m K) i) (ze E T i)).
Hypothesis HT : (length tl =? T0)%nat && all_lt T0 (fun t => tab_ok (snd (nth t path (gE, Kinf))) (nth t tl te)) = true.
Hypothesis HTe : tab_ok Kinf te = true.
Definition tab_at (t : nat) : ztab := nth t tl te.
Definition Ft (t i k : nat) : Q := zF q (tab_at t) i k.
Definition Kt (t i j : nat) : Q := zK q (tab_at t) i j.
Definition et (t i : nat) : Q := ze E (tab_at t) i.
Lemma tab_at_ok t : tab_ok (gain t) (tab_at t) = true.
Proof.
  pose proof HT as HT'. apply andb_prop in HT'. destruct HT' as (L & H1). apply Nat.eqb_eq in L. unfold tab_at. destruct (Nat.lt_ge_cases t T0) as [Lt|Lt].
  - exact (all_lt_spec _ _ H1 t Lt).
  - rewrite gain_after by exact Lt. rewrite nth_overflow by lia. exact HTe.
Qed.
Lemma tab_after t : (T0 <= t)%nat -> tab_at t = te.
Proof. intros Lt. pose proof HT as HT'. apply andb_prop in HT'. destruct HT' as (L & _). apply Nat.eqb_eq in L. unfold tab_at. apply nth_overflow. lia. Qed.
Lemma tab_shape t : shape_ok n m (tab_at t) = true.
Proof. pose proof (tab_at_ok t) as E1. unfold tab_ok in E1. do 3 (apply andb_prop in E1; destruct E1 as (E1 & _)). exact E1. Qed.
Lemma nth_tab {X} (g : nat -> X) N (dd : X) i : (i < N)%nat -> nth i (map g (seq 0 N)) dd = g i.
Proof. intros Hi. rewrite nth_indep with (d' := g 0%nat) by (rewrite map_length, seq_length; auto). rewrite map_nth, seq_nth by auto. reflexivity. Qed.
Lemma Ft_eq t i k : (i < n)%nat -> (k < n)%nat -> Ft t i k == closed n m A H (qc m (gain t)) i k.
Proof. intros Hi Hk. pose proof (tab_at_ok t) as E1. unfold tab_ok in E1. apply andb_prop in E1. destruct E1 as (E1 & _). apply andb_prop in E1. destruct E1 as (E1 & _). apply andb_prop in E1. destruct E1 as (_ & E1).
  apply Qeq_bool_iff. exact (all_lt_spec _ _ (all_lt_spec _ _ E1 i Hi) k Hk). Qed.
Lemma Kt_eq t i j : (i < n)%nat -> (j < m)%nat -> Kt t i j == qc m (gain t) i j.
Proof. intros Hi Hk. pose proof (tab_at_ok t) as E1. unfold tab_ok in E1. apply andb_prop in E1. destruct E1 as (E1 & _). apply andb_prop in E1. destruct E1 as (_ & E1).
  apply Qeq_bool_iff. exact (all_lt_spec _ _ (all_lt_spec _ _ E1 i Hi) j Hk). Qed.
Lemma et_ge t i : (i < n)%nat -> q_turn_rounding frac n m H (qc m (gain t)) i <= et t i.
Proof. intros Hi. pose proof (tab_at_ok t) as E1. unfold tab_ok in E1. apply andb_prop in E1. destruct E1 as (_ & E1). apply Qle_bool_iff. exact (all_lt_spec _ _ E1 i Hi). Qed.
(** a path that follows the turns is a path of the tables *)
Lemma follows_tab T x z : q_follows frac n m A H (fun t => qc m (gain t)) T x z ->
  forall t i, (t < T)%nat -> (i < n)%nat -> Qabs (x (S t) i - (qsum n (fun k => Ft t i k * x t k) + qsum m (fun j => Kt t i j * z t j))) <= et t i.
Proof.
  intros F t i Ht Hi. specialize (F t i Ht Hi). eapply Qle_trans; [|exact (et_ge t i Hi)]. eapply Qle_trans; [|exact F]. apply Qle_lteq. right. apply Qabs_wd. apply Qplus_comp; [reflexivity|]. apply Qopp_comp.
  rewrite turn_affine. apply Qplus_comp; apply qsum_eq; intros; [rewrite Ft_eq by auto; reflexivity|rewrite Kt_eq by auto; reflexivity].
Qed.

(** the error against any trajectory of the model: the reading's own error takes the place of the reading *)
Lemma error_tab T x z (tr : nat -> nat -> Q) : (forall t i, (t < T)%nat -> (i < n)%nat -> tr (S t) i == qsum n (fun k => A i k * tr t k)) ->
  q_follows frac n m A H (fun t => qc m (gain t)) T x z ->
  forall t i, (t < T)%nat -> (i < n)%nat ->
    Qabs ((x (S t) i - tr (S t) i) - (qsum n (fun k => Ft t i k * (x t k - tr t k)) + qsum m (fun j => Kt t i j * (z t j - qsum n (fun l => H j l * tr (S t) l))))) <= et t i.
Proof.
  intros HT' F t i Ht Hi. eapply Qle_trans; [|apply (follows_tab T x z F t i Ht Hi)]. apply Qle_lteq. right. apply Qabs_wd.
  assert (E0 : tr (S t) i == qsum n (fun k => Ft t i k * tr t k) + qsum m (fun j => Kt t i j * qsum n (fun l => H j l * tr (S t) l))).
  { rewrite (HT' t i Ht Hi).
    assert (E1 : qsum n (fun k => Ft t i k * tr t k) == q_turn_state n m A H (qc m (gain t)) (tr t) (fun _ => 0) i).
    { rewrite turn_affine. assert (Z0 : qsum m (fun j => qc m (gain t) i j * 0) == 0) by (rewrite <- (qsum_zero m); apply qsum_eq; intros; ring). rewrite Z0, Qplus_0_r.
      apply qsum_eq. intros. rewrite Ft_eq by auto. reflexivity. }
    rewrite E1. unfold q_turn_state, q_predicted.
    assert (E2 : qsum m (fun j => qc m (gain t) i j * (0 - qsum n (fun l => H j l * qsum n (fun k => A l k * tr t k)))) == - qsum m (fun j => Kt t i j * qsum n (fun l => H j l * tr (S t) l))).
    { transitivity (qsum m (fun j => (-1) * (Kt t i j * qsum n (fun l => H j l * tr (S t) l)))); [|rewrite qsum_scal_l; ring]. apply qsum_eq. intros j Hj. rewrite Kt_eq by auto.
      assert (E3 : qsum n (fun l => H j l * qsum n (fun k => A l k * tr t k)) == qsum n (fun l => H j l * tr (S t) l)) by (apply qsum_eq; intros l Hl; rewrite (HT' t l Ht Hl); reflexivity).
      rewrite E3. ring. }
    rewrite E2. ring. }
  rewrite E0 at 1.
  assert (E4 : qsum n (fun k => Ft t i k * (x t k - tr t k)) == qsum n (fun k => Ft t i k * x t k) - qsum n (fun k => Ft t i k * tr t k)) by (rewrite <- qsum_sub; apply qsum_eq; intros; ring).
  assert (E5 : qsum m (fun j => Kt t i j * (z t j - qsum n (fun l => H j l * tr (S t) l))) == qsum m (fun j => Kt t i j * z t j) - qsum m (fun j => Kt t i j * qsum n (fun l => H j l * tr (S t) l)))
    by (rewrite <- qsum_sub; apply qsum_eq; intros; ring).
  rewrite E4, E5. ring.
Qed.

Variables (x0 Cl : list Q) (P : positive).
Notation C := (fun i => nth i Cl 0).
Hypothesis Hx0 : forall i, (i < n)%nat -> nth i x0 0 == qc 1 (kf_x f) i 0.
Hypothesis Hd : (1 <= d)%nat.
Definition stays_ok : bool := all_lt (S (T0 + d)) (fun t => all_lt n (early_ok n m q E P tab_at B C Zb (fun i => nth i x0 0) T0 t)) &&
  all_lt n (steady_ok n m q E P tab_at C Zb T0 d) && all_lt n (fun i => Qle_bool (C i) (B i)).
Hypothesis HS : stays_ok = true.
Lemma cert_lim T x z : (forall i, (i < n)%nat -> x 0%nat i == qc 1 (kf_x f) i 0) -> (forall t j, (t < T)%nat -> (j < m)%nat -> Qabs (z t j) <= Zb j) ->
  q_follows frac n m A H (fun t => qc m (gain t)) T x z -> forall t i, (t <= T)%nat -> (i < n)%nat -> Qabs (x t i) <= lim B C T0 t i.
Proof.
  intros X0 HZ F t i Ht Hi. pose proof HS as HS'. apply andb_prop in HS'. destruct HS' as (HS' & H3). apply andb_prop in HS'. destruct HS' as (H1 & H2).
  eapply (zstays n m q E P tab_at B C Zb (fun i => nth i x0 0) T0 d x z T); auto.
  - intros k Hk. rewrite X0, Hx0 by auto. reflexivity.
  - exact tab_shape.
  - intros s Hs _ k Hk. apply follows_tab with (T := T); auto.
  - intros k Hk. apply Qle_bool_iff. exact (all_lt_spec _ _ H3 k Hk).
  - intros s k Hs Hs' Hk. exact (all_lt_spec _ _ (all_lt_spec _ _ H1 s ltac:(lia)) k Hk).
  - intros _ s Hs. rewrite !tab_after by lia. reflexivity.
  - intros _ k Hk. exact (all_lt_spec _ _ H2 k Hk).
Qed.
Lemma cert_stays : q_stays frac n m A H (fun t => qc m (gain t)) (fun i => qc 1 (kf_x f) i 0) Zb B.
Proof.
  intros T x z X0 HZ F t i Ht Hi. eapply Qle_trans; [apply (cert_lim T x z X0 HZ F t i Ht Hi)|]. unfold lim. destruct (t <? T0)%nat; [apply Qle_refl|].
  pose proof HS as HS'. apply andb_prop in HS'. destruct HS' as (_ & H3). apply Qle_bool_iff. exact (all_lt_spec _ _ H3 i Hi).
Qed.

(** ** the run *)
Theorem cert_run c cs rest zs : (0 <= frac)%Z -> (1 <= n)%nat -> (1 <= m)%nat -> (255 <= usize_max c)%nat -> kf_valid c n f -> ob_valid c n m o -> Forall (reading_ok frac m Zb) zs ->
  exists w' x, (forall oc da, run c (fx_num bits frac oc da) n (mk_world f cs ((m, o) :: rest)) (readings_ops zs) = Ok w') /\
    (forall i, (i < n)%nat -> x 0%nat i == qc 1 (kf_x f) i 0) /\ q_follows frac n m A H (fun t => qc m (gain t)) (length zs) x (fun t j => qc 1 (nth t zs []) j 0) /\
    (forall i, (i < n)%nat -> x (length zs) i == qc 1 (kf_x (w_kf w')) i 0 /\ Qabs (qc 1 (kf_x (w_kf w')) i 0) <= B i).
Proof.
  intros Hf Hn Hm Hc Vf Vo HZ. apply (fx_readings c bits frac Hf n m f o gain B Zb Hn Hm Vo (cert_gains c Hc Vf Vo) cert_room cert_stays cs rest zs HZ).
Qed.
End Cert.
