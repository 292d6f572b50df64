(** * What a refused Cholesky decomposition leaves behind *)
From Coq Require Import Lia.
From Verif Require Import Spec Matrix Wp Kernels Access Chol.

Section Fail.
Context {T : Type} (c : cfg) (N : num T).

(** the reciprocal left over from the column before column i *)
Definition prev_recip (n : nat) (t : list T) (i : nat) : option T :=
  match i with 0 => Some (n_zero N) | S i' => obind (cell n t i' i') (o_recip N) end.

Lemma chol_body_leaves n i j (A t : list T) d : valid c n n A -> length t = length A -> i <= j < n ->
  wp (chol_body c N n i j (t, d))
    (fun o => match o with
      | Next (t', d') => (forall p q, p < n -> q < n -> (p, q) <> (j, i) -> cell n t' p q = cell n t p q) /\ length t' = length A /\
                         (i <> j -> d' = d) /\ (i = j -> obind (cell n t' i i) (o_recip N) = Some d')
      | Return t' => i = j /\ (forall p q, p < n -> q < n -> (p, q) <> (i, i) -> cell n t' p q = cell n t p q) /\
                     exists s v, csum N n t t i i = Some s /\ o_mul N s d = Some v /\ cell n t' i i = Some v
      end) (fun _ => True).
Proof.
  intros HA HL Hij. pose proof (valid_bound _ _ _ _ HA) as HB.
  assert (Hii : i * n + i < n * n) by (apply idx_lt; lia).
  assert (Hij' : i * n + j < n * n) by (apply idx_lt; lia).
  assert (Hji : j * n + i < n * n) by (apply idx_lt; lia).
  unfold chol_body. rewrite idx_ok by lia.
  rewrite (rd_of_opt t) by lia. fold (cell n t i j). rewrite !umul_ok by lia. cbn [bind].
  destruct (cell n t i j) as [a|] eqn:Ea; [|exact I]. cbn [of_opt bind].
  rewrite (chol_inner_subdot c N) by lia.
  fold (cell n t). change (fun k => nth_error t (i * n + k)) with (fun k => cell n t i k). change (fun k => nth_error t (j * n + k)) with (fun k => cell n t j k).
  destruct (subdot N i a (fun k => cell n t i k) (fun k => cell n t j k)) as [sum|] eqn:Es; [|exact I]. cbn [of_opt bind].
  unfold n_mul. destruct (o_mul N sum d) as [v|] eqn:Ev; [|exact I]. cbn [of_opt bind].
  rewrite uadd_ok by lia. cbn [bind]. rewrite wr_ok by lia. cbn [bind].
  destruct (Nat.eqb_spec i j) as [<-|Hne].
  - destruct (n_le N sum (n_zero N)).
    + cbn [wp]. split; [reflexivity|]. split; [intros p q Hp Hq Hn; apply cell_inj; auto; lia|].
      exists sum, v. split; [unfold csum; rewrite Ea; exact Es|]. split; [exact Ev|]. apply cell_upd_same. lia.
    + unfold n_sqrt. destruct (o_sqrt N sum) as [l|]; [|exact I]. cbn [of_opt bind]. rewrite ?uadd_ok by lia. cbn [bind].
      rewrite wr_ok by (rewrite length_upd; lia). cbn [bind]. unfold n_recip. destruct (o_recip N l) as [r|] eqn:Er; [|exact I]. cbn [of_opt bind wp].
      split; [intros p q Hp Hq Hn; rewrite !cell_inj; auto; lia|]. split; [rewrite !length_upd; exact HL|]. split; [congruence|]. intros _.
      rewrite cell_upd_same by (rewrite length_upd; lia). exact Er.
  - cbn [wp]. split; [intros p q Hp Hq Hn; apply cell_inj; auto; lia|]. split; [rewrite !length_upd; exact HL|]. split; [reflexivity|]. intros; lia.
Qed.

(** the exact buffer after a refusal at column i: the columns before it are those of a factor, the refused pivot [s] has been
    multiplied by the reciprocal of the diagonal element before it, and nothing else has been touched *)
Definition chol_left (n : nat) (A t : list T) : Prop :=
  exists i s d v, i < n /\ (forall i', i' < i -> chol_col N n A t i') /\ csum N n A t i i = Some s /\ n_le N s (n_zero N) = true /\
    prev_recip n t i = Some d /\ o_mul N s d = Some v /\ cell n t i i = Some v /\
    forall p q, p < n -> q < n -> p < q \/ i <= q -> (p, q) <> (i, i) -> cell n t p q = cell n A p q.

Definition untouched (n : nat) (A : list T) (i j : nat) (t : list T) : Prop :=
  forall p q, p < n -> q < n -> p < q \/ i < q \/ (q = i /\ j <= p) -> cell n t p q = cell n A p q.

Lemma wp_and {X} (m : res X) (Q Q' : X -> Prop) E E' : wp m Q E -> wp m Q' E' -> wp m (fun x => Q x /\ Q' x) (fun _ => True).
Proof. destruct m; cbn; auto. Qed.

Lemma cholesky_left n (A t : list T) : 1 <= n -> valid c n n A -> cholesky_decompose_lower c N n n A = Ok (false, t) ->
  same_tail n n A t /\ chol_left n A t.
Proof.
  intros Hn HA HX. pose proof (cholesky_spec c N n A Hn HA) as HS. rewrite HX in HS. split; [apply HS|]. clear HS.
  revert HX. unfold cholesky_decompose_lower.
  assert (Hd : forall b, b = true -> dassert c b = Ok tt).
  { intros b ->. unfold dassert. destruct (no_assert c), (debug_assertions c); reflexivity. }
  rewrite (Hd (n =? n)) by apply Nat.eqb_refl. cbn [bind]. rewrite (Hd (0 <? n)) by (apply Nat.ltb_lt; lia). cbn [bind].
  assert (H : wp (for_range_ret 0 n (A, n_zero N) (fun i s => for_range_ret i n s (chol_body c N n i)))
     (fun o => match o with Next s => True | Return t => chol_left n A t end) (fun e => True)).
  { eapply wp_mono; [apply (wp_for_range_ret 0 n (A, n_zero N) (fun i s => for_range_ret i n s (chol_body c N n i))
      (fun i s => chol_inv N n A i (fst s) /\ untouched n A i i (fst s) /\ prev_recip n (fst s) i = Some (snd s)) (chol_left n A) (fun _ => True)); [lia| |]| |auto].
    - split; [split; [split; auto|]; split; [auto|]; intros; lia|]. split; [intros p q _ _ _; reflexivity|reflexivity].
    - intros i [u d] Hi ((H1 & H2 & H3) & HU & HP). cbn [fst snd] in *.
      eapply wp_mono; [apply (wp_for_range_ret i n (u, d) (chol_body c N n i)
        (fun j s => chol_inv_j N n A i j s /\ untouched n A i j (fst s) /\ (j = i -> prev_recip n (fst s) i = Some (snd s)) /\
                    (i < j -> obind (cell n (fst s) i i) (o_recip N) = Some (snd s))) (chol_left n A) (fun _ => True))| |auto].
      + lia.
      + split; [|split; [exact HU|split; [auto|lia]]]. split; [auto|split; [|split; [auto|lia]]]. intros p q Hp Hq Hpq. rewrite Nat.eqb_refl in Hpq. apply H2; auto.
      + intros j [u' d'] Hj (Hs & HU' & HP' & HR'). cbn [fst snd] in *.
        assert (HL : length u' = length A) by apply Hs.
        pose proof (wp_and _ _ _ _ _ (chol_body_spec c N n i j A (u', d') HA Hj Hs) (chol_body_leaves n i j A u' d' HA HL Hj)) as W.
        eapply wp_mono; [exact W| |auto]. intros [[u2 d2]|u2] [W1 W2].
        * destruct W2 as (F1 & F2 & F3 & F4). split; [exact W1|]. split; [|split; [lia|]].
          -- intros p q Hp Hq Hpq. cbn [fst]. rewrite F1; auto; [apply HU'; auto; lia|intros E; inversion E; lia].
          -- intros _. cbn [fst snd]. destruct (Nat.eq_dec i j) as [E|E]; [apply F4, E|]. rewrite F3 by auto. rewrite F1; try lia; [apply HR'; lia|].
             intros E2; inversion E2; lia.
        * destruct W2 as (-> & F1 & s & v & G1 & G2 & G3). destruct W1 as (W1 & W2 & s' & W3 & W4).
          assert (E1 : csum N n A u2 j j = csum N n u' u' j j).
          { unfold csum. rewrite (HU' j j ltac:(lia) ltac:(lia) ltac:(lia)). destruct (cell n A j j); [|reflexivity]. cbn [obind]. apply subdot_ext; intros k Hk; apply F1; try lia; intros E; inversion E; lia. }
          assert (s' = s) by congruence. subst s'.
          exists j, s, d', v. split; [lia|]. split; [exact W2|]. split; [exact W3|]. split; [exact W4|]. split.
          { rewrite <- (HP' eq_refl). unfold prev_recip. destruct j as [|j']; [reflexivity|]. rewrite F1; [reflexivity|lia|lia|intros E; inversion E; lia]. }
          split; [exact G2|]. split; [exact G3|]. intros p q Hp Hq Hpq Hne. rewrite F1 by auto. apply HU'; auto.
          destruct (Nat.eq_dec q j) as [->|]; [|lia]. destruct (Nat.lt_ge_cases p j); [lia|]. lia.
      + intros [[u' d']|u'] Ho; [|exact Ho]. cbn [fst snd] in *. destruct Ho as ((G1 & G2 & G3 & G4) & GU & _ & GR). split; [split; [auto|split]|split].
        * intros p q Hp Hq Hpq. apply G2; auto. rewrite (proj2 (Nat.eqb_neq n i)) by lia. lia.
        * intros i' Hi'. destruct (Nat.eq_dec i' i) as [->|]; [exists d'; apply G4; lia|apply G3; lia].
        * intros p q Hp Hq Hpq. apply GU; auto. lia.
        * apply GR. lia.
    - intros [s|s] Ho; [exact I|exact Ho]. }
  destruct (for_range_ret _ _ _ _) as [[[u d]|u]|e]; cbn [wp bind fst] in *; [| |discriminate].
  - destruct (chol_zero_upper c N n u); discriminate.
  - intros [= <-]. exact H.
Qed.
End Fail.
