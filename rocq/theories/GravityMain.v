(** * examples/gravity_fixed.rs: what the estimate owes to the readings *)
From Coq Require Import ZArith QArith Qabs Qround Lia Lqa Psatz.
From Verif Require Import Prelude Spec Matrix Filter SpecFilter FixedNum SpecFixed SpecFixedRange SpecFixedGain FixedRange FixedStable FixedGain LinPath ZPath FixedRun BuildSim FloatWit FixedWit FixedCert GravityFixed SpecGravity GravityProof.
Open Scope Q_scope.
Notation Ag := (qcell 16 3 (kf_A kf_g)). Notation Hg := (qcell 16 3 (ob_H ob_g)).
Notation gainC := (gain pathC gEC KinfC).
Notation FC := (Ft 17 tlC teC). Notation KC := (Kt 17 tlC teC). Notation eC := (et 16777216 tlC teC).

(** ** fifteen turns *)
Definition c15 : list Z * list Z * Z := Eval vm_compute in chainX 1 17 (back (tab_at tlC teC) 15 15) [0%Z; 0%Z; 1%Z].
Lemma c15_eq : chainX 1 17 (back (tab_at tlC teC) 15 15) [0%Z; 0%Z; 1%Z] = c15.
Proof. vm_compute. reflexivity. Qed.
Definition pull15 (k : nat) : Q := iz (fst (fst c15)) k * qscale 17 15.
Lemma weight15 : iz (snd (fst c15)) 0 * qscale 17 15 <= 66 # 1000.
Proof. apply Qle_bool_iff. vm_compute. reflexivity. Qed.
Lemma slack15 : (snd c15 # 16777216) * qscale 17 15 <= 1 # 1000.
Proof. apply Qle_bool_iff. vm_compute. reflexivity. Qed.
Lemma unit_pick (x : nat -> Q) i : (i < 3)%nat -> qsum 3 (fun k => at_ (unit_ 3 i) k * x k) == x i.
Proof. intros Hi. rewrite <- (unit_dot i 3 x Hi). apply qsum_eq. intros k Hk. rewrite unit_at by exact Hk. reflexivity. Qed.

Lemma after15 (x z : nat -> nat -> Q) W : (forall t i, (t < 15)%nat -> (i < 3)%nat -> Qabs (x (S t) i - (qsum 3 (fun k => FC t i k * x t k) + qsum 1 (fun j => KC t i j * z t j))) <= eC t i) ->
  (forall t, (t < 15)%nat -> Qabs (z t 0%nat) <= W) ->
  Qabs (x 15%nat 2%nat - (pull15 0 * x 0%nat 0%nat + pull15 1 * x 0%nat 1%nat + pull15 2 * x 0%nat 2%nat)) <= (66 # 1000) * W + (1 # 1000).
Proof.
  intros Hs HW. assert (W0 : 0 <= W) by (eapply Qle_trans; [apply Qabs_nonneg|apply (HW 0%nat); lia]).
  set (y := fun k => x (15 - k)%nat). set (zz := fun k => z (14 - k)%nat).
  destruct (chainX_sound 3 1 17 16777216 (fun _ => W) (back (tab_at tlC teC) 15 15) y zz [0%Z; 0%Z; 1%Z]) with (p := fst (fst c15)) (w := snd (fst c15)) (s := snd c15) as (_ & _ & G).
  - apply sh_back. intros t. apply (tab_shape 32 16 3 1 kf_g ob_g 42 pathC gEC KinfC HPC 17 16777216 tlC teC HTC HTeC).
  - reflexivity.
  - intros k i Hk Hi. rewrite back_len in Hk. cbv zeta. rewrite back_nth by exact Hk. unfold y, zz. pose proof (Hs (15 - 1 - k)%nat i ltac:(lia) Hi) as S1. unfold Ft, Kt, et in S1.
    replace (S (15 - 1 - k)) with (15 - k)%nat in S1 by lia. replace (15 - S k)%nat with (15 - 1 - k)%nat by lia. replace (14 - k)%nat with (15 - 1 - k)%nat by lia. exact S1.
  - intros k j Hk Hj. rewrite back_len in Hk. assert (j = 0%nat) as -> by lia. apply HW. lia.
  - exact c15_eq.
  - rewrite back_len in G. pose proof weight15 as W1. pose proof slack15 as S1. assert (W2 : iz (snd (fst c15)) 0 * qscale 17 15 * W <= (66 # 1000) * W) by (apply Qmult_le_compat_r; assumption).
    cbn [qsum] in G. unfold y in G. cbn [Nat.sub] in G. fold (pull15 0) (pull15 1) (pull15 2) in G. set (p0 := pull15 0) in *. set (p1 := pull15 1) in *. set (p2 := pull15 2) in *.
    set (w1 := iz (snd (fst c15)) 0 * qscale 17 15) in *. set (s1 := (snd c15 # 16777216) * qscale 17 15) in *. change (iz [0%Z; 0%Z; 1%Z] 0) with 0 in G. change (iz [0%Z; 0%Z; 1%Z] 1) with 0 in G. change (iz [0%Z; 0%Z; 1%Z] 2) with 1 in G.
    clearbody p0 p1 p2 w1 s1. apply Qabs_le_iff in G. apply Qabs_le_iff. split; lra.
Qed.

Lemma fval_plus a b : fval 16 (a + b) == fval 16 a + fval 16 b.
Proof. unfold fval. rewrite inject_Z_plus. unfold Qdiv. ring. Qed.
(** ** any constant acceleration *)
Section Truth.
Variables (s0 v0 a0 : Q).
Definition truth (t i : nat) : Q := match i with O => s0 + v0 * qn t + a0 * (qn t * qn t) / 2 | 1%nat => v0 + a0 * qn t | _ => a0 end.
Lemma qn_S t : qn (S t) == qn t + 1.
Proof. unfold qn. rewrite Nat2Z.inj_succ. unfold Z.succ. rewrite inject_Z_plus. reflexivity. Qed.
Lemma truth_step t i : (i < 3)%nat -> truth (S t) i == qsum 3 (fun k => Ag i k * truth t k).
Proof.
  assert (C : forall k q, k * / k * q == k / k * q) by (intros; reflexivity).
  destruct i as [|[|[|i]]]; intros Hi; [| | |lia]; cbn [qsum truth]; rewrite ?qn_S.
  - change (Ag 0%nat 0%nat) with (65536 # 65536). change (Ag 0%nat 1%nat) with (65536 # 65536). change (Ag 0%nat 2%nat) with (32768 # 65536). field.
  - change (Ag 1%nat 0%nat) with (0 # 65536). change (Ag 1%nat 1%nat) with (65536 # 65536). change (Ag 1%nat 2%nat) with (65536 # 65536). field.
  - change (Ag 2%nat 0%nat) with (0 # 65536). change (Ag 2%nat 1%nat) with (0 # 65536). change (Ag 2%nat 2%nat) with (65536 # 65536). field.
Qed.
Lemma Hg_truth t : qsum 3 (fun l => Hg 0%nat l * truth t l) == truth t 0%nat.
Proof.
  cbn [qsum]. change (Hg 0%nat 0%nat) with (65536 # 65536). change (Hg 0%nat 1%nat) with (0 # 65536). change (Hg 0%nat 2%nat) with (0 # 65536).
  cbn [truth]. field.
Qed.
End Truth.

(** ** any errors up to 4 m: the program's own assertion holds *)
Theorem gravity_assertion c oc da E : (255 <= usize_max c)%nat -> (15 <= length E)%nat -> (forall t, (t < 15)%nat -> Qabs (fval 16 (nth t E 0%Z)) <= 4) -> gravity_main c oc da real_distance E = Ok tt.
Proof.
  intros Hc LE HE.
  assert (HD : forall t, (t < 15)%nat -> Qabs (fval 16 (nth t real_distance 0%Z)) <= 962).
  { intros t Ht. apply Qle_bool_iff. revert t Ht. apply (all_lt_spec 15 (fun t => Qle_bool (Qabs (fval 16 (nth t real_distance 0%Z))) 962)). vm_compute. reflexivity. }
  assert (HD2 : forall t, (t < 15)%nat -> Qabs (fval 16 (nth t real_distance 0%Z) - truth (4905 # 1000) (- (981 # 100)) (981 # 100) (S t) 0) <= 6 # 1000).
  { intros t Ht. apply Qle_bool_iff. revert t Ht. apply (all_lt_spec 15 (fun t => Qle_bool (Qabs (fval 16 (nth t real_distance 0%Z) - truth (4905 # 1000) (- (981 # 100)) (981 # 100) (S t) 0)) (6 # 1000))). vm_compute. reflexivity. }
  assert (LD : length real_distance = 15%nat) by reflexivity.
  destruct (gravity_path c real_distance E Hc) as (s & v & a & x & R & X0 & X1 & X2 & XF & _ & _ & XE & _); [rewrite LD; exact LE| |].
  { intros t Ht. rewrite LD in Ht. specialize (HE t Ht). specialize (HD t Ht). apply Qabs_le_iff in HE. apply Qabs_le_iff in HD. apply Qabs_le_iff. unfold reading. rewrite fval_plus. lra. }
  rewrite LD in XF, XE.
  pose proof (error_tab 32 16 3 1 kf_g ob_g 42 pathC gEC KinfC HPC 17 16777216 tlC teC HTC HTeC 15 x _ (truth (4905 # 1000) (- (981 # 100)) (981 # 100)) (fun t i _ Hi => truth_step _ _ _ t i Hi) XF) as FT.
  pose proof (after15 (fun t i => x t i - truth (4905 # 1000) (- (981 # 100)) (981 # 100) t i) (fun t j => fval 16 (nth t real_distance 0%Z + nth t E 0%Z) - qsum 3 (fun l => Hg j l * truth (4905 # 1000) (- (981 # 100)) (981 # 100) (S t) l)) (4006 # 1000) FT) as G.
  cbv beta in G. specialize (G (fun t Ht => ltac:(rewrite Hg_truth, fval_plus; specialize (HE t Ht); specialize (HD2 t Ht); apply Qabs_le_iff in HE; apply Qabs_le_iff in HD2; apply Qabs_le_iff; lra))). clear FT XF.
  assert (N1 : - (122 # 1000) <= pull15 0 * - (4905 # 1000) + pull15 1 * (981 # 100) + pull15 2 * (6 - (981 # 100))) by (apply Qle_bool_iff; vm_compute; reflexivity).
  assert (N2 : pull15 0 * - (4905 # 1000) + pull15 1 * (981 # 100) + pull15 2 * (6 - (981 # 100)) <= - (119 # 1000)) by (apply Qle_bool_iff; vm_compute; reflexivity).
  rewrite X0, X1, X2, XE in G. cbn [truth] in G. change (qn 0) with 0 in G. set (p0 := pull15 0) in *. set (p1 := pull15 1) in *. set (p2 := pull15 2) in *. clearbody p0 p1 p2.
  assert (E0 : p0 * (0 - ((4905 # 1000) + - (981 # 100) * 0 + (981 # 100) * (0 * 0) / 2)) + p1 * (0 - (- (981 # 100) + (981 # 100) * 0)) + p2 * (6 - (981 # 100)) == p0 * - (4905 # 1000) + p1 * (981 # 100) + p2 * (6 - (981 # 100))) by field.
  rewrite E0 in G. clear E0. set (pp := p0 * - (4905 # 1000) + p1 * (981 # 100) + p2 * (6 - (981 # 100))) in *. clearbody pp. apply Qabs_le_iff in G.
  assert (G1 : 9 < fval 16 a) by lra. assert (G2 : fval 16 a < 10) by lra.
  unfold gravity_main. rewrite R. cbn [bind index_get]. unfold rd. cbn [nth_error bind].
  assert (B : ((9 * 2 ^ 16 <? a) && (a <? 10 * 2 ^ 16))%Z = true).
  { unfold fval in G1, G2. change (inject_Z (2 ^ 16)) with (65536 # 1) in G1, G2. unfold Qlt, Qdiv, Qmult, Qinv, inject_Z in G1, G2. cbn in G1, G2. apply andb_true_intro. split; apply Z.ltb_lt; lia. }
  transitivity (assert_ ((9 * 2 ^ 16 <? a) && (a <? 10 * 2 ^ 16))%Z); [reflexivity|]. rewrite B. reflexivity.
Qed.

Theorem gravity_accuracy c D E s0 v0 a0 W : (255 <= usize_max c)%nat -> length D = 15%nat -> (15 <= length E)%nat -> in_range D E ->
  (forall t, (t < 15)%nat -> Qabs (reading D E t - fall s0 v0 a0 (S t)) <= W) ->
  exists s v a, (forall oc da, gravity_run c oc da D E = Ok [s; v; a]) /\
    Qabs (fval 16 a - a0) <= (22 # 1000) * Qabs s0 + (2 # 1000) * Qabs v0 + (3 # 10000) * Qabs (6 - a0) + (66 # 1000) * W + (1 # 1000).
Proof.
  intros Hc LD LE HR HW. destruct (gravity_path c D E Hc) as (s & v & a & x & R & X0 & X1 & X2 & XF & _ & _ & XE & _); [rewrite LD; exact LE|exact HR|].
  exists s, v, a. split; [exact R|]. rewrite LD in XF, XE.
  pose proof (error_tab 32 16 3 1 kf_g ob_g 42 pathC gEC KinfC HPC 17 16777216 tlC teC HTC HTeC 15 x _ (truth s0 v0 a0) (fun t i _ Hi => truth_step s0 v0 a0 t i Hi) XF) as FT.
  pose proof (after15 (fun t i => x t i - truth s0 v0 a0 t i) (fun t j => fval 16 (nth t D 0%Z + nth t E 0%Z) - qsum 3 (fun l => Hg j l * truth s0 v0 a0 (S t) l)) W FT) as G. cbv beta in G.
  specialize (G (fun t Ht => ltac:(rewrite Hg_truth; exact (HW t Ht)))). clear FT XF.
  assert (N0 : Qabs (pull15 0) <= 22 # 1000) by (apply Qle_bool_iff; vm_compute; reflexivity).
  assert (N1 : Qabs (pull15 1) <= 2 # 1000) by (apply Qle_bool_iff; vm_compute; reflexivity).
  assert (N2 : Qabs (pull15 2) <= 3 # 10000) by (apply Qle_bool_iff; vm_compute; reflexivity).
  rewrite X0, X1, X2, XE in G. cbn [truth] in G. change (qn 0) with 0 in G. set (p0 := pull15 0) in *. set (p1 := pull15 1) in *. set (p2 := pull15 2) in *. clearbody p0 p1 p2.
  assert (M0 : Qabs (p0 * - s0) <= (22 # 1000) * Qabs s0) by (rewrite Qabs_Qmult, Qabs_opp; apply Qmult_le_compat_r; [exact N0|apply Qabs_nonneg]).
  assert (M1 : Qabs (p1 * - v0) <= (2 # 1000) * Qabs v0) by (rewrite Qabs_Qmult, Qabs_opp; apply Qmult_le_compat_r; [exact N1|apply Qabs_nonneg]).
  assert (M2 : Qabs (p2 * (6 - a0)) <= (3 # 10000) * Qabs (6 - a0)) by (rewrite Qabs_Qmult; apply Qmult_le_compat_r; [exact N2|apply Qabs_nonneg]).
  assert (E0 : p0 * (0 - (s0 + v0 * 0 + a0 * (0 * 0) / 2)) + p1 * (0 - (v0 + a0 * 0)) + p2 * (6 - a0) == p0 * - s0 + p1 * - v0 + p2 * (6 - a0)) by field.
  rewrite E0 in G. clear E0 N0 N1 N2. apply Qabs_le_iff in G. apply Qabs_le_iff in M0. apply Qabs_le_iff in M1. apply Qabs_le_iff in M2. apply Qabs_le_iff.
  set (q0 := p0 * - s0) in *. set (q1 := p1 * - v0) in *. set (q2 := p2 * (6 - a0)) in *. set (b0 := Qabs s0) in *. set (b1 := Qabs v0) in *. set (b2 := Qabs (6 - a0)) in *. clearbody q0 q1 q2 b0 b1 b2. lra.
Qed.

(** ** for ever *)
Definition Bd (i : nat) : Q := nth i [17400; 15500; 13000] 0.
Notation cS i := (zchain 3 1 17 1099511627776 (back (fun _ => teC) 320 320) i).
Lemma steady : forall i, (i < 3)%nat ->
  (qsum 3 (fun k => Qabs (iz (fst (fst (cS i))) k) * Bd k) + (snd (cS i) # 16777216) + qn 320 * qsum 3 Bd <= inject_Z 1099511627776 * nth i [2 # 100; 8 # 1000; 12 # 10000] 0) /\
  iz (snd (fst (cS i))) 0 * (1 # Qp 17) <= inject_Z 1099511627776 * nth i [173 # 100; 34 # 100; 27 # 1000] 0.
Proof.
  intros i Hi. assert (E : all_lt 3 (fun i => let c := cS i in Qle_bool (qsum 3 (fun k => Qabs (iz (fst (fst c)) k) * Bd k) + (snd c # 16777216) + qn 320 * qsum 3 Bd) (inject_Z 1099511627776 * nth i [2 # 100; 8 # 1000; 12 # 10000] 0) &&
    Qle_bool (iz (snd (fst c)) 0 * (1 # Qp 17)) (inject_Z 1099511627776 * nth i [173 # 100; 34 # 100; 27 # 1000] 0)) = true) by (vm_compute; reflexivity).
  pose proof (all_lt_spec _ _ E i Hi) as F. cbv beta zeta in F. apply andb_prop in F. split; apply Qle_bool_iff, F.
Qed.
Theorem gravity_tracks c D E s0 v0 a0 W : (255 <= usize_max c)%nat -> (362 <= length D)%nat -> (length D <= length E)%nat -> in_range D E ->
  (forall t, (t <= length D)%nat -> Qabs (fall s0 v0 a0 t) <= 10000 /\ Qabs (speed v0 a0 t) <= 10000) -> Qabs a0 <= 10000 ->
  (forall t, (t < length D)%nat -> Qabs (reading D E t - fall s0 v0 a0 (S t)) <= W) ->
  exists s v a, (forall oc da, gravity_run c oc da D E = Ok [s; v; a]) /\
    Qabs (fval 16 s - fall s0 v0 a0 (length D)) <= (173 # 100) * W + (2 # 100) /\
    Qabs (fval 16 v - speed v0 a0 (length D)) <= (34 # 100) * W + (8 # 1000) /\
    Qabs (fval 16 a - a0) <= (27 # 1000) * W + (12 # 10000).
Proof.
  intros Hc LD LE HR HT HA HW. destruct (gravity_path c D E Hc LE HR) as (s & v & a & x & R & _ & _ & _ & XF & XS & XV & XE & XB).
  exists s, v, a. split; [exact R|].
  pose proof (error_tab 32 16 3 1 kf_g ob_g 42 pathC gEC KinfC HPC 17 16777216 tlC teC HTC HTeC (length D) x _ (truth s0 v0 a0) (fun t i _ Hi => truth_step s0 v0 a0 t i Hi) XF) as FT. clear XF.
  set (T' := (length D - 320)%nat) in *.
  set (dx := fun t i => x (T' + t)%nat i - truth s0 v0 a0 (T' + t) i). set (dz := fun t (j : nat) => fval 16 (nth (T' + t) D 0%Z + nth (T' + t) E 0%Z) - qsum 3 (fun l => Hg j l * truth s0 v0 a0 (S (T' + t)) l)).
  assert (HS : forall t, (t < 320)%nat -> zstep 3 1 17 16777216 (fun _ => teC) dx dz t).
  { intros t Ht i Hi. unfold dx, dz. replace (T' + S t)%nat with (S (T' + t)) by lia. pose proof (FT (T' + t)%nat i ltac:(lia) Hi) as F1. unfold Ft, Kt, et in F1.
    rewrite (tab_after 16 3 1 kf_g ob_g 42 pathC gEC KinfC 17 16777216 tlC teC HTC (T' + t)) in F1 by lia. exact F1. }
  assert (HB : forall t k, (t <= 320)%nat -> (k < 3)%nat -> Qabs (dx t k) <= Bd k).
  { intros t k Ht Hk. destruct (XB (T' + t)%nat ltac:(lia)) as (B0 & B1 & B2). destruct (HT (T' + t)%nat ltac:(lia)) as (C0 & C1). unfold dx.
    eapply Qle_trans; [apply (Qabs_triangle (x (T' + t)%nat k) (- truth s0 v0 a0 (T' + t) k))|]. rewrite Qabs_opp. destruct k as [|[|[|k]]]; [| | |lia]; cbn [Bd nth truth]; [unfold fall in C0; lra|unfold speed in C1; lra|lra]. }
  assert (HZ : forall t j, (t < 320)%nat -> (j < 1)%nat -> Qabs (dz t j) <= W).
  { intros t j Ht Hj. assert (j = 0%nat) as -> by lia. unfold dz. rewrite Hg_truth. apply (HW (T' + t)%nat). lia. }
  assert (W0 : 0 <= W) by (eapply Qle_trans; [apply Qabs_nonneg|apply (HW 0%nat); lia]).
  assert (FIN : forall i, (i < 3)%nat -> Qabs (dx 320%nat i) <= nth i [173 # 100; 34 # 100; 27 # 1000] 0 * W + nth i [2 # 100; 8 # 1000; 12 # 10000] 0).
  { intros i Hi. assert (SB : forallb (shape_ok 3 1) (back (fun _ => teC) 320 320) = true) by (apply sh_back; intros; reflexivity).
    pose proof (zchain_sound 3 1 17 16777216 1099511627776 (fun _ => teC) Bd (fun _ => W) dx dz 320 320 i (le_n _) Hi SB (fun t Ht => HS t ltac:(lia)) (fun t k Ht Hk => HB t k ltac:(lia) Hk) (fun t j Ht Hj => HZ t j ltac:(lia) Hj)) as Pz.
    pose proof (dotB 3 (fun k => iz (fst (fst (cS i))) k) (dx 0%nat) Bd (fun k Hk => HB 0%nat k ltac:(lia) Hk)) as P2. cbv beta in P2. unfold zrest in Pz. rewrite back_len in Pz.
    destruct (steady i Hi) as (S1 & S2). change (320 - 320)%nat with 0%nat in Pz. set (cc := cS i) in *. clearbody cc.
    assert (S3 : iz (snd (fst cc)) 0 * (1 # Qp 17) * W <= inject_Z 1099511627776 * nth i [173 # 100; 34 # 100; 27 # 1000] 0 * W) by (apply Qmult_le_compat_r; assumption).
    assert (EW : qsum 1 (fun j => iz (snd (fst cc)) j * (1 # Qp 17) * W) == iz (snd (fst cc)) 0 * (1 # Qp 17) * W) by (cbn [qsum]; ring). rewrite EW in Pz. clear EW.
    set (k1 := nth i [173 # 100; 34 # 100; 27 # 1000] 0) in *. set (k2 := nth i [2 # 100; 8 # 1000; 12 # 10000] 0) in *. set (wc := iz (snd (fst cc)) 0 * (1 # Qp 17)) in *. set (sc := snd cc # 16777216) in *. set (bb := qn 320 * qsum 3 Bd) in *.
    set (d1 := qsum 3 (fun k => iz (fst (fst cc)) k * dx 0%nat k)) in *. set (d2 := qsum 3 (fun k => Qabs (iz (fst (fst cc)) k) * Bd k)) in *.
    apply (scale_le 1099511627776). rewrite <- (Qabs_scale 1099511627776). change (inject_Z (Zpos 1099511627776)) with (inject_Z 1099511627776) in *. set (PP := inject_Z 1099511627776) in *. set (xx := PP * dx 320%nat i) in *.
    assert (R1 : PP * (k1 * W + k2) == PP * k1 * W + PP * k2) by ring. rewrite R1. clear R1. set (y1 := PP * k1 * W) in *. set (y2 := PP * k2) in *. set (y3 := wc * W) in *. clearbody xx y1 y2 y3 d1 d2 sc bb.
    apply Qabs_le_iff in Pz. apply Qabs_le_iff in P2. apply Qabs_le_iff. split; lra. }
  unfold dx in FIN. replace (T' + 320)%nat with (length D) in FIN by lia.
  split; [|split].
  - rewrite <- XS. apply (FIN 0%nat); lia.
  - rewrite <- XV. apply (FIN 1%nat); lia.
  - rewrite <- XE. apply (FIN 2%nat); lia.
Qed.

(** ** concrete cases *)
(** the worst error of 5 m *)
Definition worst_error_list : list Z := map (fun b : bool => if b then 327680%Z else (-327680)%Z) [true; false; false; false; false; false; false; false; false; false; false; true; true; true; true].
Lemma sim_gravity_loop c1 c2 oc da D E : stricter c1 c2 -> forall s, sim (for_range 0 (length D) s (gravity_turn c1 oc da D E)) (for_range 0 (length D) s (gravity_turn c2 oc da D E)).
Proof.
  intros H s. apply sim_for_range. intros t (f & o). unfold gravity_turn. repeat first [apply sim_refl | apply sim_predict; exact H | apply sim_correct; exact H | apply sim_bind; [|intros]].
Qed.
Definition worst_end : kalman Z * observation Z := Eval vm_compute in match for_range 0 (length real_distance) (kf_g, ob_g) (gravity_turn tiny true true real_distance worst_error_list) with Ok r => r | Panic _ => (kf_g, ob_g) end.
Definition worst_state : list Z := Eval vm_compute in kf_x (fst worst_end).
Theorem gravity_assertion_fails c oc da : (255 <= usize_max c)%nat -> (forall t, (t < 15)%nat -> Qabs (fval 16 (nth t worst_error_list 0%Z)) <= 5) /\ gravity_main c oc da real_distance worst_error_list = Panic AssertFailed.
Proof.
  intros Hc. split.
  { intros t Ht. apply Qle_bool_iff. revert t Ht. apply (all_lt_spec 15 (fun t => Qle_bool (Qabs (fval 16 (nth t worst_error_list 0%Z))) 5)). vm_compute. reflexivity. }
  assert (GR : gravity_run c oc da real_distance worst_error_list = Ok worst_state).
  { unfold gravity_run. rewrite (setup_ok c oc da Hc). cbn [bind].
    assert (EL : for_range 0 (length real_distance) (kf_g, ob_g) (gravity_turn tiny oc da real_distance worst_error_list) = Ok worst_end) by (destruct oc, da; vm_compute; reflexivity).
    rewrite (sim_ok _ _ _ (sim_gravity_loop tiny c oc da real_distance worst_error_list (tiny_stricter c Hc) (kf_g, ob_g)) EL). reflexivity. }
  unfold gravity_main. rewrite GR. reflexivity.
Qed.
Lemma shipped_errors : length observation_error = 15%nat /\ length real_distance = 15%nat /\ in_range real_distance observation_error /\
  (forall t, (t < 15)%nat -> Qabs (fval 16 (nth t observation_error 0%Z)) <= 4) /\
  (forall t, (t < 15)%nat -> Qabs (reading real_distance observation_error t - fall (4905 # 1000) (- (981 # 100)) (981 # 100) (S t)) <= 9 # 10).
Proof.
  split; [reflexivity|]. split; [reflexivity|]. split; [|split].
  - intros t Ht. apply Qle_bool_iff. revert t Ht. change (length real_distance) with 15%nat. apply (all_lt_spec 15 (fun t => Qle_bool (Qabs (reading real_distance observation_error t)) 4000)). vm_compute. reflexivity.
  - intros t Ht. apply Qle_bool_iff. revert t Ht. apply (all_lt_spec 15 (fun t => Qle_bool (Qabs (fval 16 (nth t observation_error 0%Z))) 4)). vm_compute. reflexivity.
  - intros t Ht. apply Qle_bool_iff. revert t Ht. apply (all_lt_spec 15 (fun t => Qle_bool (Qabs (reading real_distance observation_error t - fall (4905 # 1000) (- (981 # 100)) (981 # 100) (S t))) (9 # 10))). vm_compute. reflexivity.
Qed.
(** a body moving away at 1 m/s, 800 readings, each 1/2 m off *)
Definition away : list Z := map (fun t => (Z.of_nat (S t) * 65536)%Z) (seq 0 800).
Definition half_off : list Z := repeat 32768%Z 800.
Lemma away_example : (362 <= length away)%nat /\ (length away <= length half_off)%nat /\ in_range away half_off /\
  (forall t, (t <= length away)%nat -> Qabs (fall 0 1 0 t) <= 10000 /\ Qabs (speed 1 0 t) <= 10000) /\ Qabs 0 <= 10000 /\
  (forall t, (t < length away)%nat -> Qabs (reading away half_off t - fall 0 1 0 (S t)) <= 1 # 2).
Proof.
  assert (LA : length away = 800%nat) by (unfold away; rewrite map_length, seq_length; reflexivity).
  rewrite LA. split; [lia|]. split; [unfold half_off; rewrite repeat_length; lia|].
  assert (RD : forall t, (t < 800)%nat -> reading away half_off t == qn t + (3 # 2)).
  { intros t Ht. unfold reading, away, half_off. rewrite (nth_tab (fun t => (Z.of_nat (S t) * 65536)%Z) 800 0%Z t Ht). rewrite (nth_indep _ 0%Z 32768%Z) by (rewrite repeat_length; exact Ht). rewrite nth_repeat.
    unfold fval, qn. rewrite Nat2Z.inj_succ. unfold Z.succ. rewrite !inject_Z_plus, inject_Z_mult, !inject_Z_plus. change (inject_Z (2 ^ 16)) with (65536 # 1). change (inject_Z 65536) with (65536 # 1). change (inject_Z 32768) with (32768 # 1). change (inject_Z 1) with 1. field. }
  assert (QN : forall t, (t <= 800)%nat -> 0 <= qn t /\ qn t <= 800).
  { intros t Ht. unfold qn. split; [change 0 with (inject_Z 0)|change 800 with (inject_Z 800)]; rewrite <- Zle_Qle; lia. }
  split; [|split; [|split]].
  - intros t Ht. rewrite LA in Ht. rewrite (RD t Ht). destruct (QN t ltac:(lia)). apply Qabs_le_iff. lra.
  - intros t Ht. destruct (QN t ltac:(lia)). unfold fall, speed. split.
    + assert (E : 0 + 1 * qn t + 0 * (qn t * qn t) / 2 == qn t) by field. rewrite E. apply Qabs_le_iff. lra.
    + assert (E : 1 + 0 * qn t == 1) by field. rewrite E. apply Qabs_le_iff. lra.
  - apply Qle_bool_iff. reflexivity.
  - intros t Ht. rewrite (RD t Ht). unfold fall. assert (E : qn t + (3 # 2) - (0 + 1 * qn (S t) + 0 * (qn (S t) * qn (S t)) / 2) == 1 # 2) by (rewrite qn_S; field). rewrite E. apply Qle_bool_iff. reflexivity.
Qed.

(** the shipped filter meets the conditions of the general theorems *)
Lemma gravity_meets c : (255 <= usize_max c)%nat -> kf_valid c 3 kf_g /\ ob_valid c 3 1 ob_g /\ fx_gains c 32 16 3 1 kf_g ob_g gainC /\
  (forall t, q_turn_room 32 16 3 1 Ag Hg (qcell 16 1 (gainC t)) (fun i => nth i [7400; 5500; 3000] 0) (fun _ => 4000)) /\
  q_stays 16 3 1 Ag Hg (fun t => qcell 16 1 (gainC t)) (fun i => qcell 16 1 (kf_x kf_g) i 0) (fun _ => 4000) (fun i => nth i [7400; 5500; 3000] 0).
Proof.
  intros Hc. split; [apply kf_g_valid, Hc|]. split; [apply ob_g_valid, Hc|]. split; [apply (cert_gains 32 16 3 1 kf_g ob_g 42 pathC gEC KinfC HPC HEC c Hc (kf_g_valid c Hc) (ob_g_valid c Hc))|].
  split.
  - intros t. destruct (cert_room 32 16 3 1 kf_g ob_g pathC gEC KinfC ZlC BlC HRC t) as (R1 & R2). split.
    + intros i Hi. exact (R1 i Hi).
    + intros j Hj. assert (j = 0%nat) as -> by lia. exact (R2 0%nat Hj).
  - intros T x z X0 HZ F t i Ht Hi. apply (cert_stays 32 16 3 1 kf_g ob_g 42 40 pathC gEC KinfC HPC ZlC BlC 17%positive 16777216%positive tlC teC HTC HTeC x0C ClC 1048576%positive x0_ok ltac:(lia) HSC T x z X0); auto.
    intros u j Hu Hj. assert (j = 0%nat) as -> by lia. exact (HZ u 0%nat Hu Hj).
Qed.
Lemma turn_example c : (255 <= usize_max c)%nat -> exists fr fr1 fr2 oref oref', kf_cov c 3 kf_g fr /\ ob_cov c 3 1 ob_g oref /\ predict c (i16f16_num true true) 3 fr = Ok fr1 /\
  correct c (i16f16_num true true) 3 1 oref fr1 = Ok (oref', fr2) /\
  (forall i, (i < 3)%nat -> Qabs (qcell 16 1 (kf_x kf_g) i 0) <= nth i [7400; 5500; 3000] 0) /\ (forall j, (j < 1)%nat -> Qabs (qcell 16 1 (ob_z ob_g) j 0) <= 4000) /\
  q_turn_room 32 16 3 1 Ag Hg (qcell 16 1 (ob_K oref')) (fun i => nth i [7400; 5500; 3000] 0) (fun _ => 4000).
Proof.
  intros Hc. destruct (gravity_meets c Hc) as (_ & _ & (g & r & G0 & GS) & RM & _). destruct (GS 0%nat) as (GO & g1 & r' & P1 & P2 & EK).
  exists (g 0%nat), g1, (g 1%nat), (r 0%nat), r'. split; [exact G0|]. split; [exact GO|]. split; [exact P1|]. split; [exact P2|]. split; [|split].
  - intros i Hi. destruct i as [|[|[|i]]]; [| | |lia]; apply Qle_bool_iff; vm_compute; reflexivity.
  - intros j Hj. assert (j = 0%nat) as -> by lia. apply Qle_bool_iff; vm_compute; reflexivity.
  - rewrite EK. apply RM.
Qed.
Theorem assertion_not_always c oc da : (255 <= usize_max c)%nat -> exists E, length E = 15%nat /\ (forall t, (t < 15)%nat -> Qabs (fval 16 (nth t E 0%Z)) <= 5) /\ gravity_main c oc da real_distance E = Panic AssertFailed.
Proof. intros Hc. exists worst_error_list. split; [reflexivity|]. apply gravity_assertion_fails, Hc. Qed.
Theorem gravity_runs c D E : (255 <= usize_max c)%nat -> (length D <= length E)%nat -> in_range D E ->
  exists s v a, (forall oc da, gravity_run c oc da D E = Ok [s; v; a]) /\ Qabs (fval 16 s) <= 7400 /\ Qabs (fval 16 v) <= 5500 /\ Qabs (fval 16 a) <= 3000.
Proof.
  intros Hc LE HR. destruct (gravity_path c D E Hc LE HR) as (s & v & a & x & R & _ & _ & _ & _ & XS & XV & XE & XB). exists s, v, a. split; [exact R|].
  rewrite <- XS, <- XV, <- XE. apply (XB (length D)). lia.
Qed.
Lemma gravity_runs_example : (length away <= length half_off)%nat /\ in_range away half_off.
Proof. split; apply away_example. Qed.
