(** * Fixed point: operations with enough room never overflow *)
From Coq Require Import ZArith QArith Qabs Lia Lqa Psatz.
From Verif Require Import Spec SpecBits SpecDefined Matrix Filter Extended SpecFilter History Kernels FixedNum SpecFixed SpecFixedRange NumSim FilterTwo BitsProof Defined FixedProof.
Open Scope Q_scope.

(** ** sums *)
Lemma qsum_le K f g : (forall k, (k < K)%nat -> f k <= g k) -> qsum K f <= qsum K g.
Proof. induction K as [|K IH]; intros H; cbn [qsum]; [lra|]. apply Qplus_le_compat; [apply IH; intros; apply H; lia|apply H; lia]. Qed.
Lemma qsum_pos K f : (forall k, (k < K)%nat -> 0 <= f k) -> 0 <= qsum K f.
Proof. induction K as [|K IH]; intros H; cbn [qsum]; [lra|]. specialize (IH ltac:(intros; apply H; lia)). specialize (H K ltac:(lia)). lra. Qed.
Lemma qsum_abs K f : Qabs (qsum K f) <= qsum K (fun k => Qabs (f k)).
Proof. induction K as [|K IH]; cbn [qsum]; [cbn; lra|]. eapply Qle_trans; [apply Qabs_triangle|]. apply Qplus_le_compat; [exact IH|apply Qle_refl]. Qed.
Lemma qsum_scal K f b : qsum K (fun k => f k * b) == qsum K f * b.
Proof. induction K as [|K IH]; cbn [qsum]; [ring|]. rewrite IH. ring. Qed.
Lemma qsum_minus K f g : qsum K (fun k => f k - g k) == qsum K f - qsum K g.
Proof. induction K as [|K IH]; cbn [qsum]; [ring|]. rewrite IH. ring. Qed.
Lemma qn_pos K : 0 <= qn K.
Proof. unfold qn. change 0 with (inject_Z 0). rewrite <- Zle_Qle. lia. Qed.
Lemma qn_ge1 K : (1 <= K)%nat -> 1 <= qn K.
Proof. intros H. unfold qn. change 1 with (inject_Z 1). rewrite <- Zle_Qle. lia. Qed.
Lemma Qabs_le_iff a b : Qabs a <= b <-> - b <= a <= b.
Proof. apply Qabs_Qle_condition. Qed.
Lemma Qabs_bd a : - Qabs a <= a <= Qabs a.
Proof. apply Qabs_le_iff. apply Qle_refl. Qed.

Section Range.
Variables (bits frac : Z).
Hypothesis Hf : (0 <= frac)%Z.
Notation NC := (fx_num bits frac true true).
Notation NU := (unlimited frac).
Notation w := (ulp frac).
Notation top := (fx_top bits frac).
Notation v := (fval frac).

Lemma v_lt a b : v a < v b <-> (a < b)%Z.
Proof.
  split; intros H.
  - destruct (Z_lt_le_dec a b) as [G|G]; [exact G|]. apply (proj2 (fval_le frac Hf _ _)) in G. lra.
  - apply Qnot_le_lt. intros G. apply (proj1 (fval_le frac Hf _ _)) in G. lia.
Qed.
Lemma v_opp a : v (- a) == - v a.
Proof. unfold fval. rewrite inject_Z_opp. field. apply QB0, Hf. Qed.
Lemma v_0 : v 0 == 0.
Proof. unfold fval. change (inject_Z 0) with 0. field. apply QB0, Hf. Qed.
Lemma fits z : - top <= v z -> v z < top -> fx_fits bits z = true.
Proof.
  unfold fx_top, fx_fits, fx_min, fx_max. intros H1 H2. rewrite <- v_opp in H1. apply (proj1 (fval_le frac Hf _ _)) in H1. apply (proj1 (v_lt _ _)) in H2.
  apply andb_true_intro. split; apply Z.leb_le; lia.
Qed.
Lemma res_ok z : - top <= v z -> v z < top -> fx_res bits true z = Some z.
Proof. intros. unfold fx_res. rewrite fits; auto. Qed.
Lemma wpos : 0 < w. Proof. apply ulp_pos, Hf. Qed.

(** one product *)
Lemma mul_ok a b : Qabs (v a * v b) + w <= top -> exists p, o_mul NC a b = Some p /\ o_mul NU a b = Some p /\ v p <= v a * v b /\ v a * v b <= v p + w.
Proof.
  intros H. exists (a * b / 2 ^ frac)%Z. pose proof (mul_down frac Hf a b). pose proof (mul_up frac Hf a b). pose proof (Qabs_bd (v a * v b)). pose proof wpos.
  split; [|split; [reflexivity|split; assumption]]. cbn. apply res_ok; lra.
Qed.

Definition dd (K : nat) (f g : nat -> option Z) : Prop := forall k, (k < K)%nat -> f k <> None /\ g k <> None.

Lemma dot_ok K f g : dd K f g -> qsum K (fun k => Qabs (oq frac (f k) * oq frac (g k))) + qn K * w <= top ->
  exists r, dot NC K f g = Some r /\ dot NU K f g = Some r /\ fx_dot_bound frac K (fun k => oq frac (f k)) (fun k => oq frac (g k)) r.
Proof.
  induction K as [|K IH]; intros D H.
  - exists 0%Z. split; [reflexivity|]. split; [reflexivity|]. apply (dot_bound frac Hf). reflexivity.
  - cbn [qsum] in H. rewrite qn_S in H. pose proof wpos. pose proof (Qabs_nonneg (oq frac (f K) * oq frac (g K))).
    destruct (IH ltac:(intros k Hk; apply D; lia)) as (s & E1 & E2 & B1 & B2); [lra|].
    destruct (D K ltac:(lia)) as [Df Dg]. destruct (f K) as [a|] eqn:Ea; [|congruence]. destruct (g K) as [b|] eqn:Eb; [|congruence]. cbn [oq] in *.
    pose proof (qsum_abs K (fun k => oq frac (f k) * oq frac (g k))) as Q1. apply Qabs_le_iff in Q1. cbv beta in Q1.
    assert (0 <= qn K * w) by (apply Qmult_le_0_compat; [apply qn_pos|lra]).
    assert (0 <= qsum K (fun k => Qabs (oq frac (f k) * oq frac (g k)))) by (apply qsum_pos; intros; apply Qabs_nonneg).
    destruct (mul_ok a b) as (p & P1 & P2 & P3 & P4); [lra|]. pose proof (Qabs_bd (v a * v b)).
    exists (s + p)%Z.
    assert (E2' : dot NU (S K) f g = Some (s + p)%Z). { cbn [dot]. rewrite E2, Ea, Eb. cbn [obind]. rewrite P2. reflexivity. }
    split; [|split; [exact E2'|apply (dot_bound frac Hf); exact E2']].
    cbn [dot]. rewrite E1, Ea, Eb. cbn [obind]. rewrite P1. cbn. apply res_ok; rewrite (fval_add frac Hf); lra.
Qed.
Lemma dot1_ok K f g : (1 <= K)%nat -> dd K f g -> qsum K (fun k => Qabs (oq frac (f k) * oq frac (g k))) + qn K * w <= top ->
  exists r, dot1 NC K f g = Some r /\ dot1 NU K f g = Some r /\ fx_dot_bound frac K (fun k => oq frac (f k)) (fun k => oq frac (g k)) r.
Proof.
  intros HK D H. assert (G : exists r, dot1 NC K f g = Some r /\ dot1 NU K f g = Some r).
  2:{ destruct G as (r & G1 & G2). exists r. split; [exact G1|]. split; [exact G2|]. apply (dot1_bound frac Hf _ _ _ _ HK G2). }
  revert HK D H. induction K as [|[|K] IH]; intros HK D H; [lia| |].
  - cbn [qsum] in H. change (qn 1) with 1 in H. destruct (D 0%nat ltac:(lia)) as [Df Dg]. cbn [dot1].
    destruct (f 0%nat) as [a|]; [|congruence]. destruct (g 0%nat) as [b|]; [|congruence]. cbn [oq obind] in *.
    destruct (mul_ok a b) as (p & P1 & P2 & _); [lra|]. exists p. auto.
  - change (qsum (S (S K)) ?q) with (qsum (S K) q + q (S K)) in H. cbv beta in H. rewrite (qn_S (S K)) in H. pose proof wpos. pose proof (Qabs_nonneg (oq frac (f (S K)) * oq frac (g (S K)))).
    destruct (IH ltac:(lia) ltac:(intros k Hk; apply D; lia)) as (s & E1 & E2); [lra|]. destruct (dot1_bound frac Hf (S K) f g s ltac:(lia) E2) as [B1 B2].
    destruct (D (S K) ltac:(lia)) as [Df Dg].
    change (dot1 ?N (S (S K)) f g) with (obind (dot1 N (S K) f g) (fun acc => obind (f (S K)) (fun x => obind (g (S K)) (fun y => obind (o_mul N x y) (fun p => o_add N acc p))))).
    destruct (f (S K)) as [a|] eqn:Ea; [|congruence]. destruct (g (S K)) as [b|] eqn:Eb; [|congruence]. cbn [oq] in *.
    pose proof (qsum_abs (S K) (fun k => oq frac (f k) * oq frac (g k))) as Q1. apply Qabs_le_iff in Q1. cbv beta in Q1.
    assert (0 <= qn (S K) * w) by (apply Qmult_le_0_compat; [apply qn_pos|lra]).
    assert (0 <= qsum (S K) (fun k => Qabs (oq frac (f k) * oq frac (g k)))) by (apply qsum_pos; intros; apply Qabs_nonneg).
    destruct (mul_ok a b) as (p & P1 & P2 & P3 & P4); [lra|]. pose proof (Qabs_bd (v a * v b)).
    exists (s + p)%Z. rewrite E1, E2. cbn [obind]. rewrite P1, P2. split; [|reflexivity]. cbn. apply res_ok; rewrite (fval_add frac Hf); lra.
Qed.

(** the magnitude of such a sum *)
Lemma dot_mag K f g r : fx_dot_bound frac K f g r -> Qabs (v r) <= qsum K (fun k => Qabs (f k * g k)) + qn K * w.
Proof.
  intros [B1 B2]. pose proof (qsum_abs K (fun k => f k * g k)) as Q1. apply Qabs_le_iff in Q1. cbv beta in Q1.
  assert (0 <= qn K * w) by (apply Qmult_le_0_compat; [apply qn_pos|pose proof wpos; lra]). apply Qabs_le_iff. lra.
Qed.
Lemma dot_up K f g r : fx_dot_bound frac K f g r -> v r <= qsum K (fun k => Qabs (f k * g k)).
Proof. intros [B1 B2]. pose proof (qsum_abs K (fun k => f k * g k)) as Q1. apply Qabs_le_iff in Q1. cbv beta in Q1. lra. Qed.

(** a + sum and a - sum *)
Lemma add_ok a r S e : Qabs (v a) + S + e <= top -> 0 < e -> - S - e <= v r -> v r <= S -> o_add NC a r = Some (a + r)%Z.
Proof. intros H He H1 H2. pose proof (Qabs_bd (v a)). cbn. apply res_ok; rewrite (fval_add frac Hf); lra. Qed.
Lemma add_ok' a r S e : Qabs (v a) + S + e <= top -> 0 < e -> - S - e <= v r -> v r <= S -> o_add NC r a = Some (r + a)%Z.
Proof. intros H He H1 H2. pose proof (Qabs_bd (v a)). cbn. apply res_ok; rewrite (fval_add frac Hf); lra. Qed.

(** (s T) a *)
Lemma mat_ok K1 K2 (s : nat -> option Z) (t : nat -> nat -> option Z) (a : nat -> option Z) :
  (forall l, (l < K1)%nat -> s l <> None) -> (forall l k, (l < K1)%nat -> (k < K2)%nat -> t l k <> None) -> (forall k, (k < K2)%nat -> a k <> None) ->
  (forall k, (k < K2)%nat -> qsum K1 (fun l => Qabs (oq frac (s l) * oq frac (t l k))) + qn K1 * w <= top) ->
  let S := qsum K2 (fun k => (qsum K1 (fun l => Qabs (oq frac (s l) * oq frac (t l k))) + qn K1 * w) * Qabs (oq frac (a k))) in
  S + qn K2 * w <= top ->
  exists r, dot NC K2 (fun k => dot NC K1 s (fun l => t l k)) a = Some r /\ (- S - qn K2 * w <= v r /\ v r <= S) /\ dot NU K2 (fun k => dot NU K1 s (fun l => t l k)) a = Some r.
Proof.
  intros Ds Dt Da H1 S H2.
  assert (E : forall k, (k < K2)%nat -> exists x, dot NC K1 s (fun l => t l k) = Some x /\ Qabs (v x) <= qsum K1 (fun l => Qabs (oq frac (s l) * oq frac (t l k))) + qn K1 * w /\ dot NU K1 s (fun l => t l k) = Some x).
  { intros k Hk. destruct (dot_ok K1 s (fun l => t l k)) as (x & E1 & E2 & B); [intros l Hl; split; auto|apply H1, Hk|]. exists x. split; [exact E1|]. split; [apply (dot_mag _ _ _ _ B)|exact E2]. }
  assert (LE : qsum K2 (fun k => Qabs (oq frac (dot NC K1 s (fun l => t l k)) * oq frac (a k))) <= S).
  { apply qsum_le. intros k Hk. destruct (E k Hk) as (x & -> & B & _). cbn [oq]. rewrite Qabs_Qmult. apply Qmult_le_compat_r; [exact B|apply Qabs_nonneg]. }
  destruct (dot_ok K2 (fun k => dot NC K1 s (fun l => t l k)) a) as (r & E1 & E2 & B).
  - intros k Hk. split; [destruct (E k Hk) as (x & -> & _); discriminate|auto].
  - lra.
  - exists r. split; [exact E1|]. pose proof (dot_mag _ _ _ _ B) as M. pose proof (dot_up _ _ _ _ B). apply Qabs_le_iff in M. cbv beta in *. split; [clearbody S; split; lra|].
    rewrite <- E2. apply dot_ext; [|reflexivity]. intros k Hk. destruct (E k Hk) as (x & -> & _ & ->). reflexivity.
Qed.
End Range.

Section Steps.
Variables (c : cfg) (bits frac : Z).
Hypothesis Hf : (0 <= frac)%Z.
Notation NC := (fx_num bits frac true true).
Notation w := (ulp frac).
Notation top := (fx_top bits frac).
Notation qc := (qcell frac).

Lemma every_build {A} (g : num Z -> res A) r : g NC = Ok r -> (forall N2, refines NC N2 -> nsim (g NC) (g N2)) ->
  (forall oc da, g (fx_num bits frac oc da) = Ok r) /\ g (unlimited frac) = Ok r.
Proof.
  intros E H. split; [intros oc da|]; (eapply nsim_ok; [apply H|exact E]); [apply fx_refines|apply fx_unlimited].
Qed.

Lemma nwpos n : (1 <= n)%nat -> 0 < qn n * w.
Proof. intros Hn. pose proof (wpos frac Hf). pose proof (qn_ge1 n Hn). nra. Qed.
Lemma drop_abs a b e t : Qabs a + b + e <= t -> b + e <= t.
Proof. intros. pose proof (Qabs_nonneg a). lra. Qed.
Lemma room0 K f g : fx_vec_room bits frac K 0 f g -> qsum K (fun k => Qabs (f k * g k)) + qn K * w <= top.
Proof. unfold fx_vec_room. change (Qabs 0) with 0. lra. Qed.

Theorem fx_mult_range M K U a b out : valid c M K a -> valid c K U b -> valid c M U out ->
  (forall i j, (i < M)%nat -> (j < U)%nat -> fx_vec_room bits frac K 0 (fun k => qc K a i k) (fun k => qc U b k j)) ->
  exists out', (forall oc da, mult c (fx_num bits frac oc da) M K U a b out = Ok out') /\ mult c (unlimited frac) M K U a b out = Ok out'.
Proof.
  intros Va Vb Vo HR. pose proof (mult_cellwise c NC M K U a b out Va Vb Vo) as HC. destruct (cellwise_total c _ _ _ _ _ Vo HC) as (out' & E).
  { intros i j x Hi Hj _. destruct (dot_ok bits frac Hf K (fun k => cell K a i k) (fun k => cell U b k j)) as (r & E1 & _).
    - intros k Hk. split; [apply (cell_def c M K)|apply (cell_def c K U)]; auto.
    - apply room0, (HR i j Hi Hj).
    - cbn beta. rewrite E1. discriminate. }
  exists out'. apply (every_build (fun N => mult c N M K U a b out) out' E). intros N2 HN. apply nsim_mult, HN.
Qed.
Theorem fx_mult_transb_range M K U a b out : valid c M K a -> valid c U K b -> valid c M U out ->
  (forall i j, (i < M)%nat -> (j < U)%nat -> fx_vec_room bits frac K 0 (fun k => qc K a i k) (fun k => qc K b j k)) ->
  exists out', (forall oc da, mult_transb c (fx_num bits frac oc da) M K U a b out = Ok out') /\ mult_transb c (unlimited frac) M K U a b out = Ok out'.
Proof.
  intros Va Vb Vo HR. pose proof (mult_transb_cellwise c NC M K U a b out Va Vb Vo) as HC. destruct (cellwise_total c _ _ _ _ _ Vo HC) as (out' & E).
  { intros i j x Hi Hj _. destruct (dot_ok bits frac Hf K (fun k => cell K a i k) (fun k => cell K b j k)) as (r & E1 & _).
    - intros k Hk. split; [apply (cell_def c M K)|apply (cell_def c U K)]; auto.
    - apply room0, (HR i j Hi Hj).
    - cbn beta. rewrite E1. discriminate. }
  exists out'. apply (every_build (fun N => mult_transb c N M K U a b out) out' E). intros N2 HN. apply nsim_mult_transb, HN.
Qed.

(** ** prediction *)
Definition fx_pred_room (n : nat) (f : kalman Z) : Prop :=
  (forall i, (i < n)%nat -> fx_vec_room bits frac n 0 (fun k => qc n (kf_A f) i k) (fun k => qc 1 (kf_x f) k 0)) /\
  (forall i j, (i < n)%nat -> (j < n)%nat -> fx_mat_room bits frac n n (qc n (kf_Q f) i j) (fun l => qc n (kf_A f) i l) (fun l k => qc n (kf_P f) l k) (fun k => qc n (kf_A f) j k)).
Theorem fx_predict_range n (f : kalman Z) : (1 <= n)%nat -> kf_valid c n f ->
  (forall i, (i < n)%nat -> fx_vec_room bits frac n 0 (fun k => qc n (kf_A f) i k) (fun k => qc 1 (kf_x f) k 0)) ->
  (forall i j, (i < n)%nat -> (j < n)%nat -> fx_mat_room bits frac n n (qc n (kf_Q f) i j) (fun l => qc n (kf_A f) i l) (fun l k => qc n (kf_P f) l k) (fun k => qc n (kf_A f) j k)) ->
  exists f', (forall oc da, predict c (fx_num bits frac oc da) n f = Ok f') /\ predict c (unlimited frac) n f = Ok f'.
Proof.
  intros Hn Hv HX HP. pose proof Hv as (VA & Vx & VP & VQ & _ & _).
  assert (E : exists f', predict c NC n f = Ok f').
  { apply (predict_defined c NC n f Hn Hv). split.
    - intros i j Hi Hj. unfold b_prodv. destruct (dot1_ok bits frac Hf n (fun k => cell n (kf_A f) i k) (fun k => cell 1 (kf_x f) k 0) Hn) as (r & E1 & _).
      + intros k Hk. split; [apply (cell_def c n n)|apply (cell_def c n 1)]; auto.
      + apply room0, (HX i Hi).
      + rewrite E1. discriminate.
    - intros i j Hi Hj. destruct (HP i j Hi Hj) as (R1 & R2).
      destruct (mat_ok bits frac Hf n n (fun l => cell n (kf_A f) i l) (fun l k => cell n (kf_P f) l k) (fun k => cell n (kf_A f) j k)) as (r & E1 & (B1 & B2) & _).
      + intros l Hl. apply (cell_def c n n); auto.
      + intros l k Hl Hk. apply (cell_def c n n); auto.
      + intros k Hk. apply (cell_def c n n); auto.
      + intros k Hk. apply room0, (R1 k Hk).
      + exact (drop_abs _ _ _ _ R2).
      + unfold b_prodt, b_prod. rewrite E1. unfold qcell at 1 in R2. pose proof (cell_def c n n _ VQ i j Hi Hj) as DQ. destruct (cell n (kf_Q f) i j) as [q|]; [|congruence]. cbn [b_add obind].
        rewrite (add_ok' bits frac Hf q r _ (qn n * w) R2 (nwpos n Hn) B1 B2). discriminate. }
  destruct E as (f' & E). exists f'. apply (every_build (fun N => predict c N n f) f' E). intros N2 HN. apply nsim_predict, HN.
Qed.

(** ** control *)
Theorem fx_control_range n m (k : control Z) (f : kalman Z) : (1 <= n)%nat -> (1 <= m)%nat -> kf_valid c n f -> ct_valid c n m k ->
  (forall i, (i < n)%nat -> fx_vec_room bits frac m (qc 1 (kf_x f) i 0) (fun l => qc m (ct_B k) i l) (fun l => qc 1 (ct_u k) l 0)) ->
  (forall i j, (i < n)%nat -> (j < n)%nat -> fx_mat_room bits frac m m (qc n (kf_P f) i j) (fun l => qc m (ct_B k) i l) (fun l p => qc m (ct_Q k) l p) (fun p => qc m (ct_B k) j p)) ->
  exists k' f', (forall oc da, control_ c (fx_num bits frac oc da) n m k f = Ok (k', f')) /\ control_ c (unlimited frac) n m k f = Ok (k', f').
Proof.
  intros Hn Hm Hv Hk HX HP. pose proof Hv as (VA & Vx & VP & VQ & _ & _). pose proof Hk as (VB & Vu & VQc & _).
  assert (E : exists k' f', control_ c NC n m k f = Ok (k', f')).
  { apply (control_defined c NC n m k f Hn Hm Hv Hk). split.
    - intros i j Hi Hj. replace j with 0%nat by lia. unfold b_prodv. pose proof (HX i Hi) as R. unfold fx_vec_room in R. pose proof (Qabs_nonneg (qc 1 (kf_x f) i 0)).
      destruct (dot1_ok bits frac Hf m (fun l => cell m (ct_B k) i l) (fun l => cell 1 (ct_u k) l 0) Hm) as (r & E1 & _ & B).
      + intros l Hl. split; [apply (cell_def c n m)|apply (cell_def c m 1)]; auto.
      + exact (drop_abs _ _ _ _ R).
      + rewrite E1. pose proof (dot_mag frac Hf _ _ _ _ B) as M. pose proof (dot_up frac _ _ _ _ B) as M2. apply Qabs_le_iff in M.
        unfold qcell at 1 in R. pose proof (cell_def c n 1 _ Vx i 0%nat Hi (le_n 1)) as DQ. destruct (cell 1 (kf_x f) i 0) as [q|]; [|congruence]. cbn [b_add obind].
        rewrite (add_ok bits frac Hf q r _ (qn m * w) R (nwpos m Hm)); [discriminate| |exact M2]. unfold qcell, oq in *. lra.
    - intros i j Hi Hj. destruct (HP i j Hi Hj) as (R1 & R2).
      destruct (mat_ok bits frac Hf m m (fun l => cell m (ct_B k) i l) (fun l k0 => cell m (ct_Q k) l k0) (fun k0 => cell m (ct_B k) j k0)) as (r & E1 & (B1 & B2) & _).
      + intros l Hl. apply (cell_def c n m); auto.
      + intros l p Hl Hp. apply (cell_def c m m); auto.
      + intros p Hp. apply (cell_def c n m); auto.
      + intros p Hp. apply room0, (R1 p Hp).
      + exact (drop_abs _ _ _ _ R2).
      + unfold b_prodt, b_prod. rewrite E1. unfold qcell at 1 in R2. pose proof (cell_def c n n _ VP i j Hi Hj) as DQ. destruct (cell n (kf_P f) i j) as [q|]; [|congruence]. cbn [b_add obind].
        rewrite (add_ok bits frac Hf q r _ (qn m * w) R2 (nwpos m Hm) B1 B2). discriminate. }
  destruct E as (k' & f' & E). exists k', f'. apply (every_build (fun N => control_ c N n m k f) (k', f') E). intros N2 HN. apply nsim_control, HN.
Qed.
End Steps.
