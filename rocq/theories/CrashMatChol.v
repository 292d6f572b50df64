(** * What decomposition and inversion leave behind when they panic *)
From Coq Require Import Lia.
From Verif Require Import Spec SpecBits Matrix Filter Wp Kernels Access Chol Inv BitsProof Crash CrashErase SpecCrash CrashKernels CrashTorn CrashMatrix SpecTorn CrashMat.

Section Chol.
Context {T : Type} (c : cfg) (N : num T).

Lemma cwp_range_ret {S R} lo hi (s : S) body (Inv : nat -> S -> Prop) (QR : R -> Prop) E : lo <= hi -> Inv lo s ->
  (forall i s, lo <= i < hi -> Inv i s -> cwp (body i s) (fun o => match o with Next s' => Inv (Datatypes.S i) s' | Return r => QR r end) E) ->
  cwp (cfor_range_ret lo hi s body) (fun o => match o with Next s' => Inv hi s' | Return r => QR r end) E.
Proof.
  intros Hle Hs H. unfold cfor_range_ret. remember (hi - lo) as d eqn:Hd. revert lo s Hle Hs Hd H. induction d as [|d IH]; intros lo s Hle Hs Hd H; cbn [cfor_up_ret].
  - replace hi with lo by lia. exact Hs.
  - apply cwp_within. eapply cwp_mono; [apply H; [lia|exact Hs]| |auto]. intros [s'|r] Ho; [|exact Ho]. apply IH; [lia|exact Ho|lia|]. intros; apply H; auto; lia.
Qed.

(** t' differs from t in column i from the diagonal down only *)
Definition col_only n i (t t' : list T) : Prop := length t' = length t /\ forall r, (forall k, i <= k < n -> r <> k * n + i) -> nth_error t' r = nth_error t r.
Lemma col_only_refl n i t : col_only n i t t. Proof. split; auto. Qed.
Lemma col_only_upd n i k (t t' : list T) v : i <= k < n -> col_only n i t t' -> col_only n i t (upd t' (k * n + i) v).
Proof. intros Hk [L H]. split; [rewrite length_upd; exact L|]. intros r Hr. rewrite nth_error_upd_other by (apply Hr; exact Hk). apply H, Hr. Qed.
Lemma body_only n i j (t : list T) d : n * n <= length t -> 2 * length t <= usize_max c -> i <= j < n -> allc (fun o => col_only n i t (ctl_mem o)) (chol_body_cr c N n i j (t, d)).
Proof.
  intros HL HB Hij. pose proof (idx_lt j i n n) as B1. pose proof (idx_lt i i n n) as B2. specialize (B1 ltac:(lia) ltac:(lia)). specialize (B2 ltac:(lia) ltac:(lia)). assert (i * n + n <= n * n) by nia. assert (j * n + n <= n * n) by nia.
  unfold chol_body_cr. apply allc_calc; [apply col_only_refl|]. intros sum _. apply allc_calc; [apply col_only_refl|]. intros t1 E1.
  assert (H1 : col_only n i t t1).
  { destruct (n_mul N sum d) as [v|]; [|discriminate]. cbn [bind] in E1. rewrite idx_ok in E1 by lia. rewrite wr_ok in E1 by lia. injection E1 as <-. apply col_only_upd; [lia|apply col_only_refl]. }
  clear E1. destruct (i =? j); [|exact H1]. destruct (n_le N sum _); [exact H1|]. apply allc_calc; [exact H1|]. intros el _. apply allc_calc; [exact H1|]. intros t2 E2.
  assert (H2 : col_only n i t t2). { rewrite idx_ok in E2 by lia. rewrite wr_ok in E2 by (rewrite (proj1 H1); lia). injection E2 as <-. apply col_only_upd; [lia|exact H1]. }
  apply allc_calc; [exact H2|]. intros d' _. exact H2.
Qed.
Lemma only_cell n i (t t' : list T) p q : p < n -> q < n -> p < q \/ q <> i -> col_only n i t t' -> i < n -> (q = i -> p < i) -> cell n t' p q = cell n t p q.
Proof. intros Hp Hq H [_ HH] Hi Hpi. unfold cell. apply HH. intros k Hk E. apply idx_inj in E; [|lia|lia]. destruct E; subst. specialize (Hpi eq_refl). lia. Qed.
Lemma only_tail n i (A t t' : list T) : i < n -> same_tail n n A t -> col_only n i t t' -> same_tail n n A t'.
Proof. intros Hi [L1 H1] [L2 H2]. split; [congruence|]. intros p Hp. rewrite H2; [apply H1, Hp|]. intros k Hk. pose proof (idx_lt k i n n). lia. Qed.

Definition low n (A t : list T) i : Prop := forall p q, p < n -> q < n -> i <= q -> q < p -> cell n t p q = cell n A p q.

Lemma cholesky_left n (A : list T) : 1 <= n -> valid c n n A ->
  cwp (cholesky_cr c N n n A) (fun _ => True) (fun s p => p = NumPanic /\ left_cholesky N n A s).
Proof.
  intros Hn HA. pose proof (valid_bound _ _ _ _ HA) as HB. unfold cholesky_cr. cbv zeta.
  replace (_ <- dassert c (n =? n) ;; dassert c (0 <? n)) with (Ok tt).
  2:{ unfold dassert. rewrite Nat.eqb_refl. rewrite (proj2 (Nat.ltb_lt 0 n)) by lia. destruct (no_assert c), (debug_assertions c); reflexivity. }
  cbn [calc]. apply cwp_within.
  eapply cwp_mono; [apply (cwp_range_ret 0 n (A, n_zero N) _ (fun i s => chol_inv N n A i (fst s) /\ low n A (fst s) i) (fun _ => True) (fun o p => p = NumPanic /\ left_cholesky N n A (ctl_mem o)))| |].
  - lia.
  - split; [|intros p q _ _ _ _; reflexivity]. split; [split; auto|]. split; [auto|]. intros i' Hi'. lia.
  - intros i [t d] Hi [HI HLo]. cbn [fst] in HI, HLo. destruct HI as (I1 & I2 & I3).
    eapply cwp_mono; [apply (cwp_range_ret i n (t, d) _ (fun j s => chol_inv_j N n A i j s /\ (i < j -> low n A (fst s) (S i)) /\ low n A (fst s) (S i)) (fun _ => True) (fun o p => p = NumPanic /\ left_cholesky N n A (ctl_mem o)))| |].
    + lia.
    + split; [|split; intros; intros p q Hp Hq H1 H2; apply HLo; lia]. split; [exact I1|]. split.
      * intros p q Hp Hq Hor. apply I2; auto. rewrite Nat.eqb_refl in Hor. exact Hor.
      * split; [exact I3|]. intros; lia.
    + intros j [u e] Hj (HJ & _ & HLj). cbn [fst] in HLj. pose proof (chol_body_spec c N n i j A (u, e) HA ltac:(lia) HJ) as W. rewrite <- er_chol_body in W.
      destruct HJ as (J1 & J2 & J3 & J4). pose proof (proj1 J1) as HL.
      pose proof (body_only n i j u e ltac:(rewrite HL; lia) ltac:(rewrite HL; lia) ltac:(lia)) as O.
      assert (K : forall t', col_only n i u t' -> low n A t' (S i)).
      { intros t' Ht p q Hp Hq H1 H2. rewrite (only_cell n i u t' p q); auto; lia. }
      destruct (chol_body_cr c N n i j (u, e)) as [o|o p]; cbn [erase wp cwp allc] in *.
      * destruct o as [[u' e']|r]; [|exact I]. split; [exact W|]. cbn [ctl_mem fst] in *. split; auto.
      * destruct W as [-> _]. split; [reflexivity|]. split; [eapply only_tail; [|exact J1|exact O]; lia|]. exists i. split; [lia|]. split.
        -- intros q Hq. apply chol_col_b. destruct (J3 q Hq) as [dq Hdq]. exists dq. eapply chol_col_frame; [lia| |exact Hdq].
           intros p k Hp Hk. apply (only_cell n i u); auto; lia.
        -- intros p q Hp Hq Hor. destruct (Nat.lt_ge_cases p q) as [Hpq|Hpq].
           ++ rewrite (only_cell n i u); auto; try lia. all: apply J2; auto.
           ++ rewrite (only_cell n i u); auto; try lia. destruct (Nat.eq_dec p q) as [->|]; [apply J2; auto; right; split; [reflexivity|]; destruct (j =? i); lia|apply HLj; lia].
    + intros [[u e]|r] Ho; [|exact I]. destruct Ho as ((J1 & J2 & J3 & J4) & _ & HLo'). cbn [fst] in *. split; [|exact HLo']. split; [exact J1|]. split.
      * intros p q Hp Hq Hor. apply J2; auto. rewrite (proj2 (Nat.eqb_neq n i)) by lia. lia.
      * intros i' Hi'. destruct (Nat.eq_dec i' i) as [->|]; [exists e; apply J4; lia|apply J3; lia].
    + auto.
  - intros [[t d]|t] Ho; [|exact I]. destruct Ho as ((J1 & _) & _). cbn [fst] in J1.
    destruct (zero_upper_spec c N n t) as (t' & E & _ & _); [eapply valid_length; [exact HA|apply J1]|]. rewrite <- er_chol_zero_upper in E.
    destruct (chol_zero_upper_cr c N n t); [exact I|discriminate].
  - auto.
Qed.

Lemma allc_range_b {S} (Q : S -> Prop) lo hi s body : Q s -> (forall i s, lo <= i < hi -> Q s -> allc Q (body i s)) -> allc Q (cfor_range lo hi s body).
Proof.
  intros Hs H. destruct (Nat.le_gt_cases lo hi) as [Hle|Hgt]; [exact (cwp_range lo hi s body (fun _ => Q) (fun s _ => Q s) Hle Hs H)|].
  unfold cfor_range. replace (hi - lo) with 0 by lia. exact Hs.
Qed.
Lemma allc_down_b {S} (Q : S -> Prop) n s body : Q s -> (forall i s, i < n -> Q s -> allc Q (body i s)) -> allc Q (cfor_down n s body).
Proof. intros Hs H. exact (cwp_down n s body (fun _ => Q) (fun s _ => Q s) Hs H). Qed.
Lemma invert_tail n (mat inv : list T) : 1 <= n -> valid c n n inv -> allc (same_tail n n inv) (invert_l_cholesky_cr c N n mat inv).
Proof.
  intros Hn HI. pose proof (valid_bound _ _ _ _ HI) as HB. destruct HI as [HL _].
  assert (H0 : same_tail n n inv inv) by (split; auto).
  assert (WR : forall p q v (l l' : list T), p < n -> q < n -> same_tail n n inv l -> (ix <- umul c p n ;; ix <- uadd c ix q ;; wr l ix v) = Ok l' -> same_tail n n inv l').
  { intros p q v l l' Hp Hq Hl E. pose proof (idx_lt p q n n Hp Hq). rewrite idx_ok in E by lia. rewrite wr_ok in E by (rewrite (proj1 Hl); lia). injection E as <-. apply same_tail_upd; assumption. }
  apply (allc_within _ (same_tail n n inv)); [|auto|].
  - apply allc_range_b; [exact H0|]. intros i s Hi Hs. apply allc_calc; [exact Hs|]. intros d _. apply allc_range_b; [exact Hs|]. intros j t Hj Ht. apply allc_lastly; [exact Ht|].
    intros l E. apply bind_Ok in E as (sm & _ & E). apply bind_Ok in E as (sm2 & _ & E). apply bind_Ok in E as (v & _ & E). exact (WR j i v t l ltac:(lia) ltac:(lia) Ht E).
  - intros inv' H'. apply allc_calc; [exact H'|]. intros la Ela. rewrite usub_ok in Ela by lia. injection Ela as <-. apply allc_down_b; [exact H'|]. intros i s Hi Hs. apply allc_calc; [exact Hs|]. intros d _.
    apply allc_range_b; [exact Hs|]. intros j t Hj Ht. apply allc_calc; [exact Ht|]. intros v _. apply (allc_within _ (same_tail n n inv)); [|auto|].
    + apply allc_lastly; [exact Ht|]. intros l E. exact (WR i j v t l ltac:(lia) ltac:(lia) Ht E).
    + intros t' Ht'. apply allc_lastly; [exact Ht'|]. intros l E. exact (WR j i v t' l ltac:(lia) ltac:(lia) Ht' E).
Qed.
Lemma invert_left n (mat inv s : list T) p : 1 <= n -> valid c n n mat -> valid c n n inv -> invert_l_cholesky_cr c N n mat inv = Unwound s p -> p = NumPanic /\ same_tail n n inv s.
Proof.
  intros Hn Hm Hi E. pose proof (invert_tail n mat inv Hn Hi) as A. rewrite E in A. split; [|exact A].
  pose proof (er_invert c N n mat inv) as R. rewrite E in R. cbn [erase] in R. pose proof (invert_spec c N n mat inv Hn Hm Hi) as W. rewrite <- R in W. exact (proj1 W).
Qed.
Lemma cholesky_left' n (A s : list T) p : 1 <= n -> valid c n n A -> cholesky_cr c N n n A = Unwound s p -> p = NumPanic /\ left_cholesky N n A s.
Proof. intros Hn HA E. pose proof (cholesky_left n A Hn HA) as W. rewrite E in W. exact W. Qed.

Lemma forgets_all M K U (s : T) (a b cm aux : list T) :
  erase (mult_cr c N M K U a b cm) = mult c N M K U a b cm /\
  erase (mult_buffered_cr c N M K U a b cm aux) = mult_buffered c N M K U a b cm aux /\
  erase (mult_rowvector_cr c N M K a b cm) = mult_rowvector c N M K a b cm /\
  erase (multadd_rowvector_cr c N M K a b cm) = multadd_rowvector c N M K a b cm /\
  erase (mult_transb_cr c N M K U a b cm) = mult_transb c N M K U a b cm /\
  erase (multadd_transb_cr c N M K U a b cm) = multadd_transb c N M K U a b cm /\
  erase (multscale_transb_cr c N s M K U a b cm) = multscale_transb c N s M K U a b cm /\
  erase (m_sub_cr c N M K a b cm) = m_sub c N M K a b cm /\
  erase (add_inplace_a_cr c N M K a b) = add_inplace_a c N M K a b /\ erase (add_inplace_b_cr c N M K a b) = add_inplace_b c N M K a b /\
  erase (sub_inplace_a_cr c N M K a b) = sub_inplace_a c N M K a b /\ erase (sub_inplace_b_cr c N M K a b) = sub_inplace_b c N M K a b /\
  erase (invert_l_cholesky_cr c N M a b) = invert_l_cholesky c N M a b /\
  erase (cholesky_cr c N M K a) = bind (cholesky_decompose_lower c N M K a) (fun r => Ok (snd r)).
Proof.
  split; [apply er_mult|]. split; [apply er_mult_buffered|]. split; [apply er_gen_mult_rowvector|]. split; [apply er_gen_mult_rowvector|]. do 3 (split; [apply er_gen_mult_transb|]).
  split; [apply er_m_sub|]. split; [apply er_add_inplace_a|]. split; [apply er_add_inplace_b|]. split; [apply er_sub_inplace_a|]. split; [apply er_sub_inplace_b|]. split; [apply er_invert|apply er_cholesky].
Qed.
End Chol.
