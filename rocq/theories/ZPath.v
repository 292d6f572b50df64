(** * Bounding linear recursions by propagating functionals backwards, computed in the integers *)
From Coq Require Import ZArith QArith Qabs Lia Lqa List.
From Verif Require Import SpecFixedGain FixedRange FixedStable FixedGain LinPath.
Import ListNotations.
Open Scope Q_scope.

(** one turn: the columns of the closed loop and of the gain, scaled by 2^q, and the rounding errors, scaled by E *)
Definition ztab : Type := (list (list Z) * list (list Z) * list Z)%type.
Fixpoint dotZ (a b : list Z) : Z := match a, b with x :: a', y :: b' => (x * y + dotZ a' b')%Z | _, _ => 0%Z end.
Fixpoint addZ (a b : list Z) : list Z := match a, b with x :: a', y :: b' => (x + y)%Z :: addZ a' b' | _, _ => [] end.
Section Chain.
Variables (n m : nat) (q E : positive).
(** the functional r, pulled back through the turns, latest first; what the readings and the rounding may add on the way *)
Fixpoint chain (ts : list ztab) (r w : list Z) (s : Z) : list Z * list Z * Z :=
  match ts with
  | [] => (r, w, s)
  | (FT, KT, e) :: ts' => chain ts' (map (fun c => Z.shiftr (dotZ r c) (Zpos q)) FT) (addZ w (map (fun c => Z.abs (dotZ r c)) KT)) (s + dotZ (map Z.abs r) e)
  end.
Definition Qp : positive := (2 ^ q)%positive.
Definition iz (l : list Z) (i : nat) : Q := inject_Z (nth i l 0%Z).
Definition zF (T : ztab) (i k : nat) : Q := nth i (nth k (fst (fst T)) []) 0%Z # Qp.
Definition zK (T : ztab) (i j : nat) : Q := nth i (nth j (snd (fst T)) []) 0%Z # Qp.
Definition ze (T : ztab) (i : nat) : Q := nth i (snd T) 0%Z # E.
Definition shape_ok (T : ztab) : bool :=
  (length (fst (fst T)) =? n)%nat && forallb (fun c => (length c =? n)%nat) (fst (fst T)) && (length (snd (fst T)) =? m)%nat && forallb (fun c => (length c =? n)%nat) (snd (fst T)) && (length (snd T) =? n)%nat.

Lemma qsum_front N f : qsum (S N) f == f 0%nat + qsum N (fun k => f (S k)).
Proof. induction N as [|N IH]; [cbn [qsum]; ring|]. cbn [qsum] in IH |- *. rewrite IH. ring. Qed.
Lemma dotZ_sum : forall N a b, length a = N -> length b = N -> inject_Z (dotZ a b) == qsum N (fun i => iz a i * iz b i).
Proof.
  induction N as [|N IH]; intros a b La Lb; destruct a as [|x a], b as [|y b]; try discriminate; [cbn; reflexivity|].
  rewrite qsum_front. cbn [dotZ iz nth]. rewrite inject_Z_plus, inject_Z_mult. apply Qplus_comp; [reflexivity|]. injection La as La. injection Lb as Lb. exact (IH a b La Lb).
Qed.
Lemma Qabs_Zabs_inject z : Qabs (inject_Z z) = inject_Z (Z.abs z).
Proof. reflexivity. Qed.
Lemma q_make z P : z # P == inject_Z z * (1 # P).
Proof. unfold Qeq, Qmult, inject_Z; cbn. ring. Qed.
Lemma sum_make N a (P : positive) : qsum N (fun i => iz a i * (1 # P)) == qsum N (iz a) * (1 # P).
Proof. apply qsum_scal. Qed.
Lemma dot_make N a b (P : positive) : length a = N -> length b = N -> qsum N (fun i => iz a i * (nth i b 0%Z # P)) == dotZ a b # P.
Proof.
  intros La Lb. rewrite (q_make (dotZ a b) P), (dotZ_sum N a b La Lb), <- qsum_scal. apply qsum_eq. intros i Hi. rewrite (q_make (nth i b 0%Z) P). unfold iz. ring.
Qed.
Lemma shiftr_near (z : Z) : Qabs ((z # Qp) - inject_Z (Z.shiftr z (Zpos q))) <= 1.
Proof.
  rewrite Z.shiftr_div_pow2 by lia. change (2 ^ Zpos q)%Z with (2 ^ Zpos q)%Z. assert (EP : (2 ^ Zpos q)%Z = Zpos Qp) by (unfold Qp; rewrite Pos2Z.inj_pow; reflexivity). rewrite EP.
  pose proof (Z.div_mod z (Zpos Qp) ltac:(lia)) as D. pose proof (Z.mod_pos_bound z (Zpos Qp) ltac:(lia)) as M. set (d := (z / Zpos Qp)%Z) in *. set (k := (z mod Zpos Qp)%Z) in *.
  apply Qabs_le_iff. unfold Qle, Qminus, Qplus, Qopp, inject_Z. cbn. split; lia.
Qed.
Lemma nth_col (l : list (list Z)) k : forallb (fun c => (length c =? n)%nat) l = true -> (k < length l)%nat -> length (nth k l []) = n.
Proof. intros H Hk. rewrite forallb_forall in H. apply Nat.eqb_eq, H, nth_In, Hk. Qed.
Lemma iz_map {X} (g : X -> Z) (l : list X) k dd : (k < length l)%nat -> iz (map g l) k = inject_Z (g (nth k l dd)).
Proof. intros Hk. unfold iz. rewrite nth_indep with (d' := g dd) by (rewrite map_length; exact Hk). rewrite map_nth. reflexivity. Qed.

Variables (B W : nat -> Q).
Lemma W_pos_dot N (f g : nat -> Q) : (forall j, (j < N)%nat -> Qabs (g j) <= W j) -> Qabs (qsum N (fun j => f j * g j)) <= qsum N (fun j => Qabs (f j) * W j).
Proof. apply dotB. Qed.
Lemma iz_add a b j : length a = length b -> iz (addZ a b) j == iz a j + iz b j.
Proof.
  revert b j. induction a as [|x a IH]; intros [|y b] j L; try discriminate; [unfold iz; destruct j; cbn; reflexivity|].
  destruct j as [|j]; [unfold iz; cbn; rewrite inject_Z_plus; reflexivity|]. injection L as L. apply (IH b j L).
Qed.
Lemma addZ_len a b : length a = length b -> length (addZ a b) = length a.
Proof. revert b. induction a as [|x a IH]; intros [|y b] L; try discriminate; [reflexivity|]. cbn. f_equal. apply IH. injection L as L. exact L. Qed.
Lemma qsum_make N (f : nat -> Q) a P : (forall j, (j < N)%nat -> f j == iz a j) -> qsum N (fun j => f j * (1 # P)) == qsum N (iz a) * (1 # P).
Proof. intros H. rewrite qsum_scal. apply Qmult_comp; [|reflexivity]. apply qsum_eq, H. Qed.

Notation wsum w := (qsum m (fun j => iz w j * (1 # Qp) * W j)).
Theorem chain_sound : forall ts (y ze_ : nat -> nat -> Q) r w s, forallb shape_ok ts = true -> length r = n -> length w = m ->
  (forall k i, (k < length ts)%nat -> (i < n)%nat -> let T := nth k ts ([], [], []) in
     Qabs (y k i - (qsum n (fun l => zF T i l * y (S k) l) + qsum m (fun j => zK T i j * ze_ k j))) <= ze T i) ->
  (forall k l, (k < length ts)%nat -> (l < n)%nat -> Qabs (y (S k) l) <= B l) ->
  (forall k j, (k < length ts)%nat -> (j < m)%nat -> Qabs (ze_ k j) <= W j) ->
  forall p w' s', chain ts r w s = (p, w', s') -> length p = n /\
  Qabs (qsum n (fun i => iz r i * y 0%nat i) - qsum n (fun i => iz p i * y (length ts) i)) <=
    (wsum w' - wsum w) + ((s' # E) - (s # E)) + qn (length ts) * qsum n B.
Proof.
  induction ts as [|[[FT KT] e] ts IH]; intros y zz r w s SH Lr Lw HS HB HW p w' s' HC.
  - cbn in HC. injection HC as <- <- <-. split; [exact Lr|]. cbn [length]. change (qn 0) with 0. apply Qabs_le_iff. lra.
  - cbn [forallb] in SH. apply andb_prop in SH. destruct SH as (S1 & SH). unfold shape_ok in S1. cbn [fst snd] in S1.
    apply andb_prop in S1. destruct S1 as (S1 & L5). apply andb_prop in S1. destruct S1 as (S1 & L4). apply andb_prop in S1. destruct S1 as (S1 & L3). apply andb_prop in S1. destruct S1 as (L1 & L2).
    apply Nat.eqb_eq in L1, L3, L5. cbn [chain] in HC. set (r' := map (fun c => Z.shiftr (dotZ r c) (Zpos q)) FT) in *. set (wi := map (fun c => Z.abs (dotZ r c)) KT) in *.
    assert (Lr' : length r' = n) by (unfold r'; rewrite map_length; exact L1). assert (Lwi : length wi = m) by (unfold wi; rewrite map_length; exact L3).
    destruct (IH (fun k => y (S k)) (fun k => zz (S k)) r' (addZ w wi) (s + dotZ (map Z.abs r) e)%Z SH Lr') with (p := p) (w' := w') (s' := s') as (Lp & G); auto.
    { rewrite addZ_len; congruence. }
    { intros k i Hk Hi. apply (HS (S k) i); [cbn; lia|exact Hi]. }
    { intros k l Hk Hl. apply (HB (S k) l); [cbn; lia|exact Hl]. }
    { intros k l Hk Hl. apply (HW (S k) l); [cbn; lia|exact Hl]. }
    split; [exact Lp|]. cbv beta in G. cbn [length] in *.
    specialize (HS 0%nat). cbn [nth] in HS. cbv zeta in HS.
    set (u := fun i => qsum n (fun l => zF (FT, KT, e) i l * y 1%nat l) + qsum m (fun j => zK (FT, KT, e) i j * zz 0%nat j)).
    pose proof (qdot_diff n (iz r) (fun i => y 0%nat i) u (fun i => ze (FT, KT, e) i) (fun i Hi => HS i ltac:(lia) Hi)) as D1. cbv beta in D1.
    assert (DE : qsum n (fun i => Qabs (iz r i) * ze (FT, KT, e) i) == dotZ (map Z.abs r) e # E).
    { rewrite <- (dot_make n (map Z.abs r) e E) by (rewrite ?map_length; assumption). apply qsum_eq. intros i Hi. unfold ze. cbn [snd]. apply Qmult_comp; [|reflexivity].
      rewrite (iz_map Z.abs r i 0%Z) by lia. unfold iz. rewrite <- Qabs_Zabs_inject. reflexivity. }
    assert (D2 : qsum n (fun i => iz r i * u i) == qsum n (fun l => (dotZ r (nth l FT []) # Qp) * y 1%nat l) + qsum m (fun j => (dotZ r (nth j KT []) # Qp) * zz 0%nat j)).
    { unfold u. transitivity (qsum n (fun i => iz r i * qsum n (fun l => zF (FT, KT, e) i l * y 1%nat l) + iz r i * qsum m (fun j => zK (FT, KT, e) i j * zz 0%nat j))); [apply qsum_eq; intros; ring|].
      rewrite qsum_add, !qsum_row. apply Qplus_comp; apply qsum_eq; intros l Hl; (apply Qmult_comp; [|reflexivity]).
      - unfold zF. cbn [fst snd]. apply dot_make; [exact Lr|]. apply nth_col; [exact L2|lia].
      - unfold zK. cbn [fst snd]. apply dot_make; [exact Lr|]. apply nth_col; [exact L4|lia]. }
    assert (D3 : Qabs (qsum m (fun j => (dotZ r (nth j KT []) # Qp) * zz 0%nat j)) <= wsum wi).
    { eapply Qle_trans; [apply (dotB m (fun j => dotZ r (nth j KT []) # Qp) (zz 0%nat) W (fun j Hj => HW 0%nat j ltac:(lia) Hj))|]. apply Qle_lteq. right. apply qsum_eq. intros j Hj. apply Qmult_comp; [|reflexivity].
      unfold wi. rewrite (iz_map (fun c => Z.abs (dotZ r c)) KT j []) by lia. rewrite q_make, Qabs_Qmult, Qabs_Zabs_inject. reflexivity. }
    assert (D4 : qsum n (fun l => (dotZ r (nth l FT []) # Qp) * y 1%nat l) == qsum n (fun l => ((dotZ r (nth l FT []) # Qp) - iz r' l) * y 1%nat l) + qsum n (fun l => iz r' l * y 1%nat l)).
    { rewrite <- qsum_add. apply qsum_eq. intros; ring. }
    assert (D5 : Qabs (qsum n (fun l => ((dotZ r (nth l FT []) # Qp) - iz r' l) * y 1%nat l)) <= qsum n B).
    { eapply Qle_trans; [apply (dotB n _ (y 1%nat) B (fun l Hl => HB 0%nat l ltac:(lia) Hl))|]. cbv beta. apply qsum_le. intros l Hl. assert (B0 : 0 <= B l) by (eapply Qle_trans; [apply Qabs_nonneg|apply (HB 0%nat l ltac:(lia) Hl)]).
      rewrite <- (Qmult_1_l (B l)) at 2. apply Qmult_le_compat_r; [|exact B0]. unfold r'. rewrite (iz_map (fun c => Z.shiftr (dotZ r c) (Zpos q)) FT l []) by lia. apply shiftr_near. }
    assert (EW : wsum (addZ w wi) == wsum w + wsum wi).
    { rewrite <- qsum_add. apply qsum_eq. intros j Hj. rewrite iz_add by congruence. ring. }
    assert (ES : (s + dotZ (map Z.abs r) e # E) == (s # E) + (dotZ (map Z.abs r) e # E)).
    { rewrite (q_make (s + _)), (q_make s), (q_make (dotZ _ _)), inject_Z_plus. ring. }
    assert (EN : qn (S (length ts)) == qn (length ts) + 1) by (unfold qn; rewrite Nat2Z.inj_succ; unfold Z.succ; rewrite inject_Z_plus; reflexivity).
    rewrite EN. rewrite DE, D2, D4 in D1. rewrite EW, ES in G. clear DE D2 D4 EW ES EN.
    apply Qabs_le_iff in D1. apply Qabs_le_iff in D3. apply Qabs_le_iff in D5. apply Qabs_le_iff in G. apply Qabs_le_iff.
    set (a1 := qsum n (fun i => iz r i * y 0%nat i)) in *. set (a2 := qsum n (fun l => ((dotZ r (nth l FT []) # Qp) - iz r' l) * y 1%nat l)) in *.
    set (a3 := qsum n (fun l => iz r' l * y 1%nat l)) in *. set (a4 := qsum m (fun j => (dotZ r (nth j KT []) # Qp) * zz 0%nat j)) in *. set (a5 := qsum n (fun i => iz p i * y (S (length ts)) i)) in *.
    set (nb := qsum n B) in *. set (k1 := qn (length ts)) in *. set (b1 := wsum w) in *. set (b2 := wsum wi) in *. set (b3 := wsum w') in *. set (c1 := s # E) in *. set (c2 := dotZ (map Z.abs r) e # E) in *. set (c3 := s' # E) in *.
    clearbody a1 a2 a3 a4 a5 nb k1 b1 b2 b3 c1 c2 c3. split; [|]; nra.
Qed.
End Chain.

Section Stay.
Variables (n m : nat) (q E P : positive) (tab : nat -> ztab).
(** P times the i-th component *)
Definition unitZ (i : nat) : list Z := map (fun k => if (k =? i)%nat then Zpos P else 0%Z) (seq 0 n).
(** the tables of the d turns before time t, latest first *)
Fixpoint back (t d : nat) : list ztab := match d with O => [] | S d' => tab (t - 1) :: back (t - 1) d' end.
Definition zchain (ts : list ztab) (i : nat) : list Z * list Z * Z := chain q ts (unitZ i) (repeat 0%Z m) 0.
Variables (B W : nat -> Q).
Definition zrest (ts : list ztab) (c : list Z * list Z * Z) : Q := qsum m (fun j => iz (snd (fst c)) j * (1 # Qp q) * W j) + (snd c # E) + qn (length ts) * qsum n B.

Lemma back_len d : forall t, length (back t d) = d.
Proof. induction d as [|d IH]; intros t; cbn; [reflexivity|]. f_equal. apply IH. Qed.
Lemma back_nth d : forall t k, (k < d)%nat -> nth k (back t d) ([], [], []) = tab (t - 1 - k).
Proof.
  induction d as [|d IH]; intros t k Hk; [lia|]. destruct k as [|k]; cbn [back nth]; [f_equal; lia|]. rewrite IH by lia. f_equal. lia.
Qed.
Lemma unitZ_at i k : (k < n)%nat -> iz (unitZ i) k = if (k =? i)%nat then inject_Z (Zpos P) else 0.
Proof.
  intros Hk. unfold unitZ. rewrite (iz_map (fun k => if (k =? i)%nat then Zpos P else 0%Z) (seq 0 n) k 0%nat) by (rewrite seq_length; exact Hk). rewrite seq_nth by exact Hk. cbn [Nat.add]. destruct (k =? i)%nat; reflexivity.
Qed.
Lemma unitZ_dot i v : (i < n)%nat -> qsum n (fun k => iz (unitZ i) k * v k) == inject_Z (Zpos P) * v i.
Proof.
  intros Hi. rewrite <- (unit_dot i n v Hi), <- qsum_scal_l. apply qsum_eq. intros k Hk. rewrite unitZ_at by exact Hk. destruct (k =? i)%nat; ring.
Qed.

Variables (x z : nat -> nat -> Q).
Definition zstep (t : nat) : Prop := forall i, (i < n)%nat -> Qabs (x (S t) i - (qsum n (fun k => zF q (tab t) i k * x t k) + qsum m (fun j => zK q (tab t) i j * z t j))) <= ze E (tab t) i.
(** the last d turns before time t *)
Theorem zchain_sound t d i : (d <= t)%nat -> (i < n)%nat -> forallb (shape_ok n m) (back t d) = true ->
  (forall s, (t - d <= s < t)%nat -> zstep s) -> (forall s l, (t - d <= s < t)%nat -> (l < n)%nat -> Qabs (x s l) <= B l) ->
  (forall s j, (t - d <= s < t)%nat -> (j < m)%nat -> Qabs (z s j) <= W j) ->
  Qabs (inject_Z (Zpos P) * x t i - qsum n (fun k => iz (fst (fst (zchain (back t d) i))) k * x (t - d)%nat k)) <= zrest (back t d) (zchain (back t d) i).
Proof.
  intros Hd Hi SH HS HB HW. destruct (zchain (back t d) i) as ((p & w) & s) eqn:EC. unfold zrest. cbn [fst snd].
  pose proof (chain_sound n m q E B W (back t d) (fun k => x (t - k)%nat) (fun k => z (t - 1 - k)%nat) (unitZ i) (repeat 0%Z m) 0%Z SH) as C.
  destruct C with (p := p) (w' := w) (s' := s) as (Lp & G).
  - unfold unitZ. rewrite map_length, seq_length. reflexivity.
  - apply repeat_length.
  - intros k l Hk Hl. rewrite back_len in Hk. cbv zeta. rewrite back_nth by exact Hk. pose proof (HS (t - 1 - k)%nat ltac:(lia) l Hl) as S1.
    replace (S (t - 1 - k)) with (t - k)%nat in S1 by lia. replace (t - S k)%nat with (t - 1 - k)%nat by lia. exact S1.
  - intros k l Hk Hl. rewrite back_len in Hk. apply HB; [lia|exact Hl].
  - intros k l Hk Hl. rewrite back_len in Hk. apply HW; [lia|exact Hl].
  - exact EC.
  - rewrite back_len in G |- *. rewrite Nat.sub_0_r, (unitZ_dot i (x t) Hi) in G. eapply Qle_trans; [exact G|].
    assert (W0 : qsum m (fun j => iz (repeat 0%Z m) j * (1 # Qp q) * W j) == 0).
    { rewrite <- (qsum_zero m). apply qsum_eq. intros j Hj. unfold iz. rewrite nth_repeat. change (inject_Z 0) with 0. ring. }
    rewrite W0. assert (Z0 : 0 # E == 0) by reflexivity. rewrite Z0. lra.
Qed.
End Stay.

(** ** staying in a box *)
Section Boxes.
Variables (n m : nat) (q E P : positive) (tab : nat -> ztab) (B C W x0 : nat -> Q) (T0 d : nat).
(** within B before time T0, within C from then on *)
Definition lim (t i : nat) : Q := if (t <? T0)%nat then B i else C i.
Definition early_ok (t i : nat) : bool :=
  let c := zchain n m q P (back tab t t) i in Qle_bool (Qabs (qsum n (fun k => iz (fst (fst c)) k * x0 k)) + zrest n m q E B W (back tab t t) c) (inject_Z (Zpos P) * lim t i).
Definition steady_ok (i : nat) : bool :=
  let ts := back tab (T0 + d) d in let c := zchain n m q P ts i in Qle_bool (qsum n (fun k => Qabs (iz (fst (fst c)) k) * C k) + zrest n m q E C W ts c) (inject_Z (Zpos P) * C i).
Variables (x z : nat -> nat -> Q) (T : nat).
Hypothesis Hx0 : forall i, (i < n)%nat -> x 0%nat i == x0 i.
Hypothesis Hsh : forall t, shape_ok n m (tab t) = true.
Hypothesis Hstep : forall t, (t < T)%nat -> (forall i, (i < n)%nat -> Qabs (x t i) <= B i) -> zstep n m q E tab x z t.
Hypothesis HW : forall t j, (t < T)%nat -> (j < m)%nat -> Qabs (z t j) <= W j.
Hypothesis Hd : (1 <= d)%nat.
Hypothesis HCB : forall i, (i < n)%nat -> C i <= B i.
Hypothesis Hearly : forall t i, (t <= T)%nat -> (t <= T0 + d)%nat -> (i < n)%nat -> early_ok t i = true.
Hypothesis Hconst : (T0 + d < T)%nat -> forall t, (T0 <= t)%nat -> tab t = tab T0.
Hypothesis Hsteady : (T0 + d < T)%nat -> forall i, (i < n)%nat -> steady_ok i = true.
Lemma sh_back dd : forall t, forallb (shape_ok n m) (back tab t dd) = true.
Proof. induction dd as [|dd IH]; intros t; cbn [back forallb]; [reflexivity|]. rewrite Hsh. apply IH. Qed.
Lemma back_const dd : forall t t', (T0 + d < T)%nat -> (T0 + dd <= t)%nat -> (T0 + dd <= t')%nat -> back tab t dd = back tab t' dd.
Proof.
  induction dd as [|dd IH]; intros t t' HT Ht Ht'; cbn [back]; [reflexivity|]. rewrite (Hconst HT (t - 1)), (Hconst HT (t' - 1)) by lia. f_equal. apply IH; [exact HT|lia|lia].
Qed.
Lemma lim_B t i : (i < n)%nat -> lim t i <= B i.
Proof. intros Hi. unfold lim. destruct (t <? T0)%nat; [lra|apply HCB, Hi]. Qed.
Lemma scale_le a b : inject_Z (Zpos P) * a <= inject_Z (Zpos P) * b -> a <= b.
Proof. intros H. apply (Qmult_le_l a b (inject_Z (Zpos P))); [reflexivity|exact H]. Qed.
Lemma Qabs_scale a : Qabs (inject_Z (Zpos P) * a) == inject_Z (Zpos P) * Qabs a.
Proof. rewrite Qabs_Qmult. apply Qmult_comp; reflexivity. Qed.
Theorem zstays : forall t i, (t <= T)%nat -> (i < n)%nat -> Qabs (x t i) <= lim t i.
Proof.
  intros t. induction t as [t IH] using (well_founded_induction lt_wf). intros i Ht Hi. apply scale_le. rewrite <- Qabs_scale.
  assert (HB : forall s l, (s < t)%nat -> (l < n)%nat -> Qabs (x s l) <= B l) by (intros s l Hs Hl; eapply Qle_trans; [apply IH; [exact Hs|lia|exact Hl]|apply lim_B, Hl]).
  assert (HSt : forall s, (s < t)%nat -> zstep n m q E tab x z s) by (intros s Hs; apply Hstep; [lia|intros; apply HB; auto]).
  destruct (Nat.le_gt_cases t (T0 + d)) as [L|L].
  - pose proof (zchain_sound n m q E P tab B W x z t t i (le_n _) Hi (sh_back t t) (fun s Hs => HSt s (proj2 Hs)) (fun s l Hs Hl => HB s l (proj2 Hs) Hl) (fun s j Hs Hj => HW s j ltac:(lia) Hj)) as G.
    rewrite Nat.sub_diag in G. pose proof (Hearly t i Ht L Hi) as EO. unfold early_ok in EO. cbv zeta in EO. apply Qle_bool_iff in EO.
    set (c := zchain n m q P (back tab t t) i) in *. assert (E0 : qsum n (fun k => iz (fst (fst c)) k * x 0%nat k) == qsum n (fun k => iz (fst (fst c)) k * x0 k)) by (apply qsum_eq; intros k Hk; rewrite (Hx0 k Hk); reflexivity).
    rewrite E0 in G. pose proof (Qabs_bd (qsum n (fun k => iz (fst (fst c)) k * x0 k))) as D6. apply Qabs_le_iff in G. apply Qabs_le_iff. split; lra.
  - assert (LT : (T0 + d < T)%nat) by lia. 
    assert (HCs : forall s l, (T0 <= s < t)%nat -> (l < n)%nat -> Qabs (x s l) <= C l).
    { intros s l Hs Hl. eapply Qle_trans; [apply (IH s); [lia|lia|exact Hl]|]. unfold lim. destruct (Nat.ltb_spec s T0); [lia|apply Qle_refl]. }
    pose proof (zchain_sound n m q E P tab C W x z t d i ltac:(lia) Hi (sh_back d t) (fun s Hs => HSt s (proj2 Hs)) (fun s l Hs Hl => HCs s l ltac:(lia) Hl) (fun s j Hs Hj => HW s j ltac:(lia) Hj)) as G.
    pose proof (Hsteady LT i Hi) as EO. unfold steady_ok in EO. cbv zeta in EO. rewrite (back_const d (T0 + d) t LT ltac:(lia) ltac:(lia)) in EO. apply Qle_bool_iff in EO.
    set (c := zchain n m q P (back tab t d) i) in *. pose proof (dotB n (fun k => iz (fst (fst c)) k) (x (t - d)%nat) C (fun k Hk => HCs (t - d)%nat k ltac:(lia) Hk)) as D. cbv beta in D.
    unfold lim. destruct (Nat.ltb_spec t T0); [lia|]. apply Qabs_le_iff in G. apply Qabs_le_iff in D. apply Qabs_le_iff. split; lra.
Qed.
End Boxes.

(** ** without rounding the functional, for a few turns: holds of unbounded paths too *)
Section Exact.
Variables (n m : nat) (q E : positive).
(** after k turns the functional is scaled by 2^(k q): the functional, the sizes of the weights and the rounding, all at the last scale *)
Fixpoint chainX (ts : list ztab) (r : list Z) : list Z * list Z * Z :=
  match ts with
  | [] => (r, repeat 0%Z m, 0%Z)
  | (FT, KT, e) :: ts' => let '(p, w, s) := chainX ts' (map (fun c => dotZ r c) FT) in
    (p, addZ (map (fun c => Z.shiftl (Z.abs (dotZ r c)) (Zpos q * Z.of_nat (length ts'))) KT) w, (Z.shiftl (dotZ (map Z.abs r) e) (Zpos q * Z.of_nat (S (length ts'))) + s)%Z)
  end.
Fixpoint qscale (k : nat) : Q := match k with O => 1 | S k' => (1 # Qp q) * qscale k' end.
Lemma qscale_shift z k : inject_Z (Z.shiftl z (Zpos q * Z.of_nat k)) * qscale k == inject_Z z.
Proof.
  rewrite Z.shiftl_mul_pow2 by lia. induction k as [|k IH]; [cbn [qscale]; rewrite Z.mul_0_r, Z.pow_0_r, Z.mul_1_r; ring|].
  cbn [qscale]. rewrite Nat2Z.inj_succ, Z.mul_succ_r, Z.pow_add_r by lia. rewrite Z.mul_assoc, inject_Z_mult.
  assert (EP : (2 ^ Zpos q)%Z = Zpos (Qp q)) by (unfold Qp; rewrite Pos2Z.inj_pow; reflexivity). rewrite EP.
  assert (E1 : inject_Z (Zpos (Qp q)) * (1 # Qp q) == 1) by (unfold Qeq, Qmult, inject_Z; cbn; lia).
  transitivity (inject_Z (z * 2 ^ (Zpos q * Z.of_nat k)) * qscale k * (inject_Z (Zpos (Qp q)) * (1 # Qp q))); [ring|]. rewrite E1, IH. ring.
Qed.
Lemma qscale_pos k : 0 <= qscale k.
Proof. induction k as [|k IH]; [discriminate|]. cbn [qscale]. apply Qmult_le_0_compat; [discriminate|exact IH]. Qed.
Variables (W : nat -> Q).
Theorem chainX_sound : forall ts (y ze_ : nat -> nat -> Q) r, forallb (shape_ok n m) ts = true -> length r = n ->
  (forall k i, (k < length ts)%nat -> (i < n)%nat -> let T := nth k ts ([], [], []) in
     Qabs (y k i - (qsum n (fun l => zF q T i l * y (S k) l) + qsum m (fun j => zK q T i j * ze_ k j))) <= ze E T i) ->
  (forall k j, (k < length ts)%nat -> (j < m)%nat -> Qabs (ze_ k j) <= W j) ->
  forall p w s, chainX ts r = (p, w, s) -> length p = n /\ length w = m /\
  Qabs (qsum n (fun i => iz r i * y 0%nat i) - qsum n (fun i => iz p i * qscale (length ts) * y (length ts) i)) <= qsum m (fun j => iz w j * qscale (length ts) * W j) + (s # E) * qscale (length ts).
Proof.
  induction ts as [|[[FT KT] e] ts IH]; intros y zz r SH Lr HS HW p w s HC.
  - cbn in HC. injection HC as <- <- <-. split; [exact Lr|]. split; [apply repeat_length|]. cbn [length qscale].
    assert (E0 : qsum m (fun j => iz (repeat 0%Z m) j * 1 * W j) == 0) by (rewrite <- (qsum_zero m); apply qsum_eq; intros j Hj; unfold iz; rewrite nth_repeat; change (inject_Z 0) with 0; ring).
    assert (E1 : qsum n (fun i => iz r i * 1 * y 0%nat i) == qsum n (fun i => iz r i * y 0%nat i)) by (apply qsum_eq; intros; ring).
    rewrite E0, E1. assert (Z0 : 0 # E == 0) by reflexivity. rewrite Z0. apply Qabs_le_iff. lra.
  - cbn [forallb] in SH. apply andb_prop in SH. destruct SH as (S1 & SH). unfold shape_ok in S1. cbn [fst snd] in S1.
    apply andb_prop in S1. destruct S1 as (S1 & L5). apply andb_prop in S1. destruct S1 as (S1 & L4). apply andb_prop in S1. destruct S1 as (S1 & L3). apply andb_prop in S1. destruct S1 as (L1 & L2).
    apply Nat.eqb_eq in L1, L3, L5. cbn [chainX] in HC. set (r' := map (fun c => dotZ r c) FT) in *.
    destruct (chainX ts r') as ((p' & w1) & s1) eqn:EC.
    set (wi := map (fun c => Z.shiftl (Z.abs (dotZ r c)) (Zpos q * Z.of_nat (length ts))) KT) in HC. set (sh := Z.shiftl (dotZ (map Z.abs r) e) (Zpos q * Z.of_nat (S (length ts)))) in HC. injection HC as <- <- <-.
    assert (Lr' : length r' = n) by (unfold r'; rewrite map_length; exact L1).
    destruct (IH (fun k => y (S k)) (fun k => zz (S k)) r' SH Lr') with (p := p') (w := w1) (s := s1) as (Lp & Lw & G); auto.
    { intros k i Hk Hi. apply (HS (S k) i); [cbn; lia|exact Hi]. }
    { intros k l Hk Hl. apply (HW (S k) l); [cbn; lia|exact Hl]. }
    split; [exact Lp|]. split; [rewrite addZ_len; unfold wi; rewrite map_length; congruence|]. cbv beta in G. cbn [length] in *.
    specialize (HS 0%nat). cbn [nth] in HS. cbv zeta in HS.
    set (u := fun i => qsum n (fun l => zF q (FT, KT, e) i l * y 1%nat l) + qsum m (fun j => zK q (FT, KT, e) i j * zz 0%nat j)).
    pose proof (qdot_diff n (iz r) (fun i => y 0%nat i) u (fun i => ze E (FT, KT, e) i) (fun i Hi => HS i ltac:(lia) Hi)) as D1. cbv beta in D1.
    assert (DE : qsum n (fun i => Qabs (iz r i) * ze E (FT, KT, e) i) == dotZ (map Z.abs r) e # E).
    { rewrite <- (dot_make n (map Z.abs r) e E) by (rewrite ?map_length; assumption). apply qsum_eq. intros i Hi. unfold ze. cbn [snd]. apply Qmult_comp; [|reflexivity].
      rewrite (iz_map Z.abs r i 0%Z) by lia. unfold iz. rewrite <- Qabs_Zabs_inject. reflexivity. }
    assert (D2 : qsum n (fun i => iz r i * u i) == (1 # Qp q) * qsum n (fun l => iz r' l * y 1%nat l) + qsum m (fun j => (dotZ r (nth j KT []) # Qp q) * zz 0%nat j)).
    { unfold u. transitivity (qsum n (fun i => iz r i * qsum n (fun l => zF q (FT, KT, e) i l * y 1%nat l) + iz r i * qsum m (fun j => zK q (FT, KT, e) i j * zz 0%nat j))); [apply qsum_eq; intros; ring|].
      rewrite qsum_add, !qsum_row. apply Qplus_comp.
      - rewrite <- qsum_scal_l. apply qsum_eq. intros l Hl. unfold r'. rewrite (iz_map (fun c => dotZ r c) FT l []) by lia.
        assert (EF : qsum n (fun i => iz r i * zF q (FT, KT, e) i l) == dotZ r (nth l FT []) # Qp q) by (unfold zF; cbn [fst snd]; apply dot_make; [exact Lr|apply nth_col; [exact L2|lia]]). rewrite EF, q_make. ring.
      - apply qsum_eq. intros l Hl. apply Qmult_comp; [|reflexivity]. unfold zK. cbn [fst snd]. apply dot_make; [exact Lr|]. apply nth_col; [exact L4|lia]. }
    assert (D3 : Qabs (qsum m (fun j => (dotZ r (nth j KT []) # Qp q) * zz 0%nat j)) <= qsum m (fun j => iz wi j * qscale (S (length ts)) * W j)).
    { eapply Qle_trans; [apply (dotB m (fun j => dotZ r (nth j KT []) # Qp q) (zz 0%nat) W (fun j Hj => HW 0%nat j ltac:(lia) Hj))|]. apply Qle_lteq. right. apply qsum_eq. intros j Hj. apply Qmult_comp; [|reflexivity].
      unfold wi. rewrite (iz_map (fun c => Z.shiftl (Z.abs (dotZ r c)) (Zpos q * Z.of_nat (length ts))) KT j []) by lia. cbn [qscale].
      transitivity (inject_Z (Z.shiftl (Z.abs (dotZ r (nth j KT []))) (Zpos q * Z.of_nat (length ts))) * qscale (length ts) * (1 # Qp q)); [|ring]. rewrite qscale_shift, q_make, Qabs_Qmult, Qabs_Zabs_inject. reflexivity. }
    assert (EW : qsum m (fun j => iz (addZ wi w1) j * qscale (S (length ts)) * W j) == qsum m (fun j => iz wi j * qscale (S (length ts)) * W j) + (1 # Qp q) * qsum m (fun j => iz w1 j * qscale (length ts) * W j)).
    { rewrite <- qsum_scal_l, <- qsum_add. apply qsum_eq. intros j Hj. rewrite iz_add by (unfold wi; rewrite map_length; congruence). cbn [qscale]. ring. }
    assert (ES : (sh + s1 # E) * qscale (S (length ts)) == (dotZ (map Z.abs r) e # E) + (1 # Qp q) * ((s1 # E) * qscale (length ts))).
    { unfold sh. rewrite (q_make (_ + s1)), (q_make s1), (q_make (dotZ _ _)), inject_Z_plus. set (X := dotZ (map Z.abs r) e).
      transitivity (inject_Z (Z.shiftl X (Zpos q * Z.of_nat (S (length ts)))) * qscale (S (length ts)) * (1 # E) + inject_Z s1 * (1 # E) * qscale (S (length ts))); [ring|]. rewrite qscale_shift. cbn [qscale]. ring. }
    assert (EP : qsum n (fun i => iz p' i * qscale (S (length ts)) * y (S (length ts)) i) == (1 # Qp q) * qsum n (fun i => iz p' i * qscale (length ts) * y (S (length ts)) i)).
    { rewrite <- qsum_scal_l. apply qsum_eq. intros i Hi. cbn [qscale]. ring. }
    rewrite EW, ES, EP. rewrite DE, D2 in D1. clear EW ES EP DE D2.
    set (h := 1 # Qp q) in *. assert (h0 : 0 <= h) by (unfold h; discriminate).
    assert (G' : Qabs (h * (qsum n (fun i => iz r' i * y 1%nat i) - qsum n (fun i => iz p' i * qscale (length ts) * y (S (length ts)) i))) <= h * (qsum m (fun j => iz w1 j * qscale (length ts) * W j) + (s1 # E) * qscale (length ts))).
    { rewrite Qabs_Qmult, (Qabs_pos h h0), Qmult_comm, (Qmult_comm h). apply Qmult_le_compat_r; [exact G|exact h0]. }
    apply Qabs_le_iff in D1. apply Qabs_le_iff in D3. apply Qabs_le_iff in G'. apply Qabs_le_iff. clear G.
    set (a1 := qsum n (fun i => iz r i * y 0%nat i)) in *. set (a2 := qsum n (fun i => iz r' i * y 1%nat i)) in *. set (a3 := qsum n (fun i => iz p' i * qscale (length ts) * y (S (length ts)) i)) in *.
    set (a4 := qsum m (fun j => (dotZ r (nth j KT []) # Qp q) * zz 0%nat j)) in *. set (b1 := qsum m (fun j => iz w1 j * qscale (length ts) * W j)) in *. set (b2 := qsum m (fun j => iz wi j * qscale (S (length ts)) * W j)) in *.
    set (c1 := (s1 # E) * qscale (length ts)) in *. set (c2 := dotZ (map Z.abs r) e # E) in *. clearbody a1 a2 a3 a4 b1 b2 c1 c2 h.
    assert (R1 : h * (a2 - a3) == h * a2 - h * a3) by ring. assert (R2 : h * (b1 + c1) == h * b1 + h * c1) by ring. rewrite R1, R2 in G'. split; lra.
Qed.
End Exact.
