(** * Powers of two go through every formula of the filter *)
From Coq Require Import ZArith Lia List Floats.SpecFloat Wf_nat.
From Verif Require Import Prelude Numeric FloatNum Spec SpecBits SpecFloats SpecReal SpecScale Scale.
Local Open Scope nat_scope.

Section Bits.
Variables (prec emax : Z) (sz : bool).
Hypothesis Hprec : (1 < prec)%Z.
Hypothesis Hpmax : (prec < emax)%Z.
Notation N := (sf_roomy prec emax sz).
Notation sf := spec_float.
Notation tp := (times_pow2 prec emax).
Notation mat := (nat -> nat -> option sf).
Definition osc (e : Z) (o o' : option sf) : Prop := forall v v', o = Some v -> o' = Some v' -> tp e v v'.
Definition msc (R C : nat) (e : nat -> nat -> Z) (A A' : mat) : Prop := forall i j, i < R -> j < C -> osc (e i j) (A i j) (A' i j).

Lemma osc_eq e e' o o' : e = e' -> osc e o o' -> osc e' o o'. Proof. intros ->. exact (fun H => H). Qed.
Lemma osc_some e v v' : tp e v v' -> osc e (Some v) (Some v').
Proof. intros H u u' E E'. injection E as <-. injection E' as <-. exact H. Qed.
Lemma obind_some {A B} (o : option A) (k : A -> option B) v : obind o k = Some v -> exists a, o = Some a /\ k a = Some v.
Proof. destruct o as [a|]; [intros H; exists a; split; [reflexivity|exact H]|discriminate]. Qed.
Lemma osc_add e a a' b b' : osc e a a' -> osc e b b' -> osc e (b_add N a b) (b_add N a' b').
Proof.
  intros A B v v' H H'. apply obind_some in H as (x & Ex & H). apply obind_some in H as (y & Ey & H). apply obind_some in H' as (x' & Ex' & H'). apply obind_some in H' as (y' & Ey' & H').
  exact (tp_add prec emax Hprec Hpmax sz e x x' y y' v v' (A _ _ Ex Ex') (B _ _ Ey Ey') H H').
Qed.
Lemma osc_sub e a a' b b' : osc e a a' -> osc e b b' -> osc e (b_sub N a b) (b_sub N a' b').
Proof.
  intros A B v v' H H'. apply obind_some in H as (x & Ex & H). apply obind_some in H as (y & Ey & H). apply obind_some in H' as (x' & Ex' & H'). apply obind_some in H' as (y' & Ey' & H').
  exact (tp_sub prec emax Hprec Hpmax sz e x x' y y' v v' (A _ _ Ex Ex') (B _ _ Ey Ey') H H').
Qed.
Lemma osc_mul e1 e2 a a' b b' : osc e1 a a' -> osc e2 b b' -> osc (e1 + e2) (b_mul N a b) (b_mul N a' b').
Proof.
  intros A B v v' H H'. apply obind_some in H as (x & Ex & H). apply obind_some in H as (y & Ey & H). apply obind_some in H' as (x' & Ex' & H'). apply obind_some in H' as (y' & Ey' & H').
  exact (tp_mul prec emax Hprec Hpmax sz e1 e2 x x' y y' v v' (A _ _ Ex Ex') (B _ _ Ey Ey') H H').
Qed.
Lemma osc_neg e a a' : osc e a a' -> osc e (obind a (o_neg N)) (obind a' (o_neg N)).
Proof. intros A v v' H H'. apply obind_some in H as (x & Ex & H). apply obind_some in H' as (x' & Ex' & H'). exact (tp_neg prec emax sz e x x' v v' (A _ _ Ex Ex') H H'). Qed.
Lemma osc_recip e a a' : osc e a a' -> osc (- e) (obind a (o_recip N)) (obind a' (o_recip N)).
Proof. intros A v v' H H'. apply obind_some in H as (x & Ex & H). apply obind_some in H' as (x' & Ex' & H'). exact (tp_recip prec emax Hprec Hpmax sz e x x' v v' (A _ _ Ex Ex') H H'). Qed.

(** sums *)
Lemma dot_S K f g : dot N (S K) f g = b_add N (dot N K f g) (b_mul N (f K) (g K)).
Proof. cbn [dot]. destruct (dot N K f g); [|reflexivity]. destruct (f K); [|reflexivity]. destruct (g K); reflexivity. Qed.
Lemma osc_dot e K f f' g g' : (forall k, k < K -> osc e (b_mul N (f k) (g k)) (b_mul N (f' k) (g' k))) -> osc e (dot N K f g) (dot N K f' g').
Proof.
  induction K as [|K IH]; intros H; [apply osc_some, tp_zero|]. rewrite !dot_S. apply osc_add; [apply IH; intros; apply H; lia|apply H; lia].
Qed.
Lemma dot1_S K f g : dot1 N (S (S K)) f g = b_add N (dot1 N (S K) f g) (b_mul N (f (S K)) (g (S K))).
Proof. change (dot1 N (S (S K)) f g) with (obind (dot1 N (S K) f g) (fun acc => obind (f (S K)) (fun u => obind (g (S K)) (fun v => obind (o_mul N u v) (fun p => o_add N acc p))))).
  destruct (dot1 N (S K) f g); [|reflexivity]. destruct (f (S K)); [|reflexivity]. destruct (g (S K)); reflexivity. Qed.
Lemma osc_dot1 e K f f' g g' : (forall k, k < K -> osc e (b_mul N (f k) (g k)) (b_mul N (f' k) (g' k))) -> osc e (dot1 N K f g) (dot1 N K f' g').
Proof.
  destruct K as [|K]; intros H; [intros v v' E; discriminate E|]. induction K as [|K IH]; [exact (H 0 ltac:(lia))|].
  rewrite !dot1_S. apply osc_add; [apply IH; intros; apply H; lia|apply H; lia].
Qed.
Lemma subdot_S K a f g : obind a (fun a => subdot N (S K) a f g) = b_sub N (obind a (fun a => subdot N K a f g)) (b_mul N (f K) (g K)).
Proof. destruct a as [a|]; [|reflexivity]. cbn [obind subdot]. destruct (subdot N K a f g); [|reflexivity]. destruct (f K); [|reflexivity]. destruct (g K); reflexivity. Qed.
Lemma osc_subdot e K a a' f f' g g' : osc e a a' -> (forall k, k < K -> osc e (b_mul N (f k) (g k)) (b_mul N (f' k) (g' k))) ->
  osc e (obind a (fun a => subdot N K a f g)) (obind a' (fun a => subdot N K a f' g')).
Proof.
  intros A. induction K as [|K IH]; intros H.
  - destruct a, a'; exact A.
  - rewrite !subdot_S. apply osc_sub; [apply IH; intros; apply H; lia|apply H; lia].
Qed.
Lemma negsum_S lo K m x : b_negsum N lo (S K) m x = b_add N (b_negsum N lo K m x) (b_mul N (obind (m (lo + K)) (o_neg N)) (x (lo + K))).
Proof.
  unfold b_negsum. cbn [osum]. destruct (osum _ _ _ _); [|reflexivity]. cbn [obind b_add]. destruct (m (lo + K)); [|reflexivity]. cbn. destruct (x (lo + K)); [|reflexivity]. reflexivity.
Qed.
Lemma osc_negsum e lo K m m' x x' : (forall k, lo <= k < lo + K -> exists e1 e2, (e1 + e2)%Z = e /\ osc e1 (m k) (m' k) /\ osc e2 (x k) (x' k)) -> osc e (b_negsum N lo K m x) (b_negsum N lo K m' x').
Proof.
  induction K as [|K IH]; intros H; [apply osc_some, tp_zero|]. rewrite !negsum_S. apply osc_add; [apply IH; intros; apply H; lia|].
  destruct (H (lo + K) ltac:(lia)) as (e1 & e2 & <- & A & B). apply osc_mul; [apply osc_neg, A|exact B].
Qed.
(** products: row units r, inner units k, column units s *)
Lemma msc_prod R K C (r k s : nat -> Z) A A' B B' : msc R K (fun i j => r i + k j)%Z A A' -> msc K C (fun i j => - k i + s j)%Z B B' ->
  msc R C (fun i j => r i + s j)%Z (b_prod N K A B) (b_prod N K A' B').
Proof.
  intros HA HB i j Hi Hj. unfold b_prod. apply osc_dot. intros t Ht. eapply osc_eq; [|apply osc_mul; [apply HA; lia|apply HB; lia]]. lia.
Qed.
Lemma msc_prodt R K C (r k s : nat -> Z) A A' B B' : msc R K (fun i j => r i + k j)%Z A A' -> msc C K (fun j i => - k i + s j)%Z B B' ->
  msc R C (fun i j => r i + s j)%Z (b_prodt N K A B) (b_prodt N K A' B').
Proof.
  intros HA HB i j Hi Hj. unfold b_prodt. apply osc_dot. intros t Ht. eapply osc_eq; [|apply osc_mul; [apply HA; lia|apply HB; lia]]. lia.
Qed.
Lemma msc_prodv R K (r k : nat -> Z) A A' V V' : msc R K (fun i j => r i + k j)%Z A A' -> msc K 1 (fun i _ => - k i)%Z V V' ->
  forall i, i < R -> osc (r i) (b_prodv N K A V i 0) (b_prodv N K A' V' i 0).
Proof.
  intros HA HV i Hi. unfold b_prodv. apply osc_dot1. intros t Ht. eapply osc_eq; [|apply osc_mul; [apply HA; lia|apply HV; lia]]. lia.
Qed.
Lemma msc_eq R C e e' A A' : (forall i j, i < R -> j < C -> e i j = e' i j) -> msc R C e A A' -> msc R C e' A A'.
Proof. intros E H i j Hi Hj. rewrite <- E by assumption. apply H; assumption. Qed.

(** the factor *)
Section Factor.
Variables (m : nat) (eo : nat -> Z) (S L S' L' : mat).
Hypothesis HS : msc m m (fun i j => eo i + eo j)%Z S S'.
Hypothesis HL : b_factor N m S L.
Definition col_sc (i : nat) : Prop := forall j, i <= j < m -> osc (eo j) (L j i) (L' j i).
Lemma pivot i : i < m -> (forall t, t < i -> col_sc t) -> forall j, i <= j < m ->
  osc (eo i + eo j) (obind (S i j) (fun a => subdot N i a (fun k => L i k) (fun k => L j k))) (obind (S' i j) (fun a => subdot N i a (fun k => L' i k) (fun k => L' j k))).
Proof. intros Hi IH j Hj. apply osc_subdot; [apply HS; lia|]. intros t Ht. apply osc_mul; apply IH; lia. Qed.
Lemma col_step i : i < m -> b_column N m S' L' i -> (forall t, t < i -> col_sc t) -> col_sc i.
Proof.
  intros Hi (s' & l' & d' & Es' & Hs' & El' & Ed' & EL' & HC') IH. destruct HL as [HC _]. destruct (HC i Hi) as (s & l & d & Es & Hs & El & Ed & EL & HCi).
  assert (TS : tp (2 * eo i) s s') by (replace (2 * eo i)%Z with (eo i + eo i)%Z by lia; apply (pivot i Hi IH i ltac:(lia)); assumption).
  assert (TL : tp (eo i) l l') by exact (tp_sqrt prec emax Hprec Hpmax sz _ s s' l l' TS Hs Hs' El El').
  assert (TD : tp (- eo i) d d') by exact (tp_recip prec emax Hprec Hpmax sz _ l l' d d' TL Ed Ed').
  intros j Hj. destruct (Nat.eq_dec j i) as [->|Hn]; [rewrite EL, EL'; apply osc_some, TL|].
  destruct (HCi j ltac:(lia)) as [E _]. destruct (HC' j ltac:(lia)) as [E' _]. rewrite E, E'.
  eapply osc_eq; [|apply osc_mul; [apply (pivot i Hi IH j ltac:(lia))|apply osc_some, TD]]. lia.
Qed.
Lemma factor_sc : b_factor N m S' L' \/ b_no_factor N m S' L' -> b_factor N m S' L' /\ forall i, i < m -> col_sc i.
Proof.
  intros [H|(i & s' & d' & Hi & HC' & Es' & Hs' & _)].
  - split; [exact H|]. destruct H as [HC' _]. intros i. induction i as [i IH] using lt_wf_ind. intros Hi. apply col_step; [exact Hi|apply HC', Hi|]. intros t Ht. apply IH; lia.
  - exfalso. assert (IH : forall t, t < i -> col_sc t).
    { intros t. induction t as [t IH] using lt_wf_ind. intros Ht. apply col_step; [lia|apply HC', Ht|]. intros q Hq. apply IH; lia. }
    destruct HL as [HC _]. destruct (HC i Hi) as (s & l & d & Es & Hs & _). pose proof (pivot i Hi IH i ltac:(lia) s s' Es Es') as TS.
    apply (tp_leb prec emax) in TS. change (n_le N s (n_zero N)) with (SFleb s (S754_zero false)) in Hs. change (n_le N s' (n_zero N)) with (SFleb s' (S754_zero false)) in Hs'. congruence.
Qed.
End Factor.

Lemma inverse_sc m eo L X L' X' : (forall i j, i <= j < m -> osc (eo j) (L j i) (L' j i)) -> b_inverse N m L X -> b_inverse N m L' X' ->
  msc m m (fun i j => - eo i - eo j)%Z X X'.
Proof.
  intros HL [Y HY] [Y' HY'].
  assert (RR : forall i, i < m -> forall r r', obind (L i i) (o_recip N) = Some r -> obind (L' i i) (o_recip N) = Some r' -> tp (- eo i) r r').
  { intros i Hi r r' E E'. exact (osc_recip (eo i) _ _ (HL i i ltac:(lia)) r r' E E'). }
  assert (FY : forall i j, j <= i < m -> osc (- eo j) (Y j i) (Y' j i)).
  { intros i. induction i as [i IH] using lt_wf_ind. intros j Hj.
    destruct (HY i ltac:(lia)) as (r & Er & HE). destruct (HY' i ltac:(lia)) as (r' & Er' & HE'). destruct (HE j ltac:(lia)) as (E & _). destruct (HE' j ltac:(lia)) as (E' & _). rewrite E, E'.
    eapply osc_eq with (e := (eo i - eo j + - eo i)%Z); [lia|]. apply osc_mul; [|apply osc_some, (RR i); [lia|exact Er|exact Er']]. apply osc_add.
    - destruct (Nat.eqb_spec i j) as [->|]; apply osc_some; [|apply tp_zero]. replace (eo j - eo j)%Z with 0%Z by lia. apply tp_one; assumption.
    - apply osc_negsum. intros t Ht. exists (eo i), (- eo j)%Z. split; [lia|]. split; [apply HL; lia|apply IH; lia]. }
  assert (FX : forall q i, m - i <= q -> forall j, j <= i < m -> osc (- eo i - eo j) (X i j) (X' i j)).
  { induction q as [|q IH]; intros i Hq j Hj; [lia|].
    destruct (HY i ltac:(lia)) as (r & Er & HE). destruct (HY' i ltac:(lia)) as (r' & Er' & HE'). destruct (HE j ltac:(lia)) as (_ & E & _). destruct (HE' j ltac:(lia)) as (_ & E' & _). rewrite E, E'.
    eapply osc_eq with (e := (- eo j + - eo i)%Z); [lia|]. apply osc_mul; [|apply osc_some, (RR i); [lia|exact Er|exact Er']]. apply osc_add; [apply FY; lia|].
    apply osc_negsum. intros t Ht. exists (eo t), (- eo t - eo j)%Z. split; [lia|]. split; [apply HL; lia|].
    destruct (HY t ltac:(lia)) as (? & _ & HT). destruct (HT j ltac:(lia)) as (_ & _ & ->). destruct (HY' t ltac:(lia)) as (? & _ & HT'). destruct (HT' j ltac:(lia)) as (_ & _ & ->).
    apply IH; lia. }
  intros i j Hi Hj. destruct (Nat.le_gt_cases j i) as [H|H]; [apply (FX (m - i)); lia|].
  destruct (HY j Hj) as (? & _ & HT). destruct (HT i ltac:(lia)) as (_ & _ & ->). destruct (HY' j Hj) as (? & _ & HT'). destruct (HT' i ltac:(lia)) as (_ & _ & ->).
  eapply osc_eq; [|apply (FX (m - j)); lia]. lia.
Qed.

(** the whole update *)
Lemma update_sc n m (ex eo : nat -> Z) H R P x y L Si K x1 P1 H' R' P' x' y' L' Si' K' x1' P1' :
  msc m n (fun i j => eo i - ex j)%Z H H' -> msc m m (fun i j => eo i + eo j)%Z R R' -> msc n n (fun i j => ex i + ex j)%Z P P' ->
  msc n 1 (fun i _ => ex i) x x' -> msc m 1 (fun i _ => eo i) y y' ->
  b_update N n m H R P x y L Si K x1 P1 -> b_update N n m H' R' P' x' y' L' Si' K' x1' P1' ->
  b_factor N m (fun i j => b_add N (b_prodt N n (b_prod N n H P) H i j) (R i j)) L ->
  b_factor N m (fun i j => b_add N (b_prodt N n (b_prod N n H' P') H' i j) (R' i j)) L' /\
  msc n m (fun i j => ex i - eo j)%Z K K' /\ msc n 1 (fun i _ => ex i) x1 x1' /\ msc n n (fun i j => ex i + ex j)%Z P1 P1'.
Proof.
  intros HH HR HP Hx Hy (S0 & _ & _ & HI & HK & Hx1 & HP1) (S0' & HS0' & HF' & HI' & HK' & Hx1' & HP1') HF.
  set (SS := fun i j => b_add N (b_prodt N n (b_prod N n H P) H i j) (R i j)) in *. set (SS' := fun i j => b_add N (b_prodt N n (b_prod N n H' P') H' i j) (R' i j)).
  assert (EHP : msc m n (fun i j => eo i + ex j)%Z (b_prod N n H P) (b_prod N n H' P')).
  { apply (msc_prod m n n eo (fun j => - ex j)%Z ex); [eapply msc_eq; [|exact HH]; intros; cbn beta; lia|eapply msc_eq; [|exact HP]; intros; cbn beta; lia]. }
  assert (ES : msc m m (fun i j => eo i + eo j)%Z SS SS').
  { intros i j Hi Hj. apply osc_add; [|apply HR; assumption]. apply (msc_prodt m n m eo ex eo); [exact EHP| |exact Hi|exact Hj]. eapply msc_eq; [|exact HH]; intros; cbn beta; lia. }
  assert (HF2 : b_factor N m SS' L' \/ b_no_factor N m SS' L').
  { destruct HF' as [[A B]|(i & s & d & A & B & D & F & G & J & J2 & J3)].
    - left. split; [|exact B]. intros i Hi. destruct (A i Hi) as (s & l & d & A1 & A2 & A3 & A4 & A5 & A6). exists s, l, d. rewrite (HS0' i i) in A1 by lia. split; [exact A1|].
      do 4 (split; [assumption|]). intros j Hj. specialize (A6 j Hj). rewrite (HS0' i j) in A6 by lia. exact A6.
    - right. exists i, s, d. split; [exact A|]. split.
      { intros i' Hi'. destruct (B i' Hi') as (s1 & l1 & d1 & A1 & A2 & A3 & A4 & A5 & A6). exists s1, l1, d1. rewrite (HS0' i' i') in A1 by lia. split; [exact A1|].
        do 4 (split; [assumption|]). intros j Hj. specialize (A6 j Hj). rewrite (HS0' i' j) in A6 by lia. exact A6. }
      rewrite (HS0' i i) in D by lia. split; [exact D|]. do 4 (split; [assumption|]). intros p q Hp Hq Ho Hne. specialize (J3 p q Hp Hq Ho Hne). rewrite (HS0' p q) in J3 by lia. exact J3. }
  destruct (factor_sc m eo SS L SS' L' ES HF HF2) as [HF3 HC].
  assert (EX : msc m m (fun i j => - eo i - eo j)%Z Si Si') by (apply (inverse_sc m eo L Si L' Si'); [intros i j Hj; apply (HC i ltac:(lia) j Hj)|exact HI|exact HI']).
  assert (EPH : msc n m (fun i j => ex i + eo j)%Z (b_prodt N n P H) (b_prodt N n P' H')).
  { apply (msc_prodt n n m ex ex eo); [exact HP|]. eapply msc_eq; [|exact HH]; intros; cbn beta; lia. }
  assert (EK : msc n m (fun i j => ex i - eo j)%Z K K').
  { intros i j Hi Hj. rewrite HK, HK' by assumption. eapply osc_eq; [|apply (msc_prod n m m ex eo (fun j => - eo j)%Z _ _ Si Si' EPH); [|exact Hi|exact Hj]]; [cbn beta; lia|].
    eapply msc_eq; [|exact EX]. intros; cbn beta; lia. }
  split; [exact HF3|]. split; [exact EK|]. split.
  - intros i j Hi Hj. assert (j = 0) by lia. subst j. rewrite Hx1, Hx1' by assumption. apply osc_add; [apply (Hx i 0); lia|].
    apply (msc_prodv n m ex (fun j => - eo j)%Z); [eapply msc_eq; [|exact EK]; intros; cbn beta; lia| |exact Hi]. eapply msc_eq; [|exact Hy]; intros; cbn beta; lia.
  - intros i j Hi Hj. rewrite HP1, HP1' by assumption. apply osc_sub; [apply HP; assumption|].
    apply (msc_prod n m n ex (fun j => - eo j)%Z ex); [eapply msc_eq; [|exact EK]; intros; cbn beta; lia| |exact Hi|exact Hj]. eapply msc_eq; [|exact EHP]; intros; cbn beta; lia.
Qed.
End Bits.
