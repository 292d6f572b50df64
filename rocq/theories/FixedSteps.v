(** * Fixed point: rounding errors of the control step and of the correction, step by step *)
From Coq Require Import ZArith QArith Qabs Lia Lqa Psatz.
From Verif Require Import Spec SpecBits Matrix Filter SpecFilter Kernels FixedNum SpecFixed NumSim FilterTwo BitsProof Defined FixedProof FixedRange.
Open Scope Q_scope.

Section Steps.
Variable (frac : Z).
Hypothesis Hf : (0 <= frac)%Z.
Notation NU := (unlimited frac).
Notation w := (ulp frac).
Notation v := (fval frac).
Notation oq := (oq frac).

Lemma dot_some K (f g : nat -> option Z) r : dot NU K f g = Some r -> forall k, (k < K)%nat -> f k <> None /\ g k <> None.
Proof.
  revert r. induction K as [|K IH]; intros r E k Hk; [lia|]. cbn [dot] in E. destruct (dot NU K f g) as [s|] eqn:Es; [|discriminate]. cbn [obind] in E.
  destruct (Nat.eq_dec k K) as [->|Hne]; [|apply (IH s eq_refl k); lia].
  destruct (f K); [|discriminate]. destruct (g K); [|discriminate]. split; discriminate.
Qed.
Lemma nw0 K : 0 <= qn K * w.
Proof. apply Qmult_le_0_compat; [apply qn_pos|pose proof (wpos frac Hf); lra]. Qed.

Lemma mat_err K1 K2 (s : nat -> option Z) (t : nat -> nat -> option Z) (a : nat -> option Z) r :
  dot NU K2 (fun k => dot NU K1 s (fun l => t l k)) a = Some r ->
  Qabs (v r - qsum K2 (fun k => qsum K1 (fun l => oq (s l) * oq (t l k)) * oq (a k))) <= qn K2 * w + qn K1 * w * qsum K2 (fun k => Qabs (oq (a k))).
Proof.
  intros E. pose proof (dot_bound frac Hf _ _ _ _ E) as [B1 B2].
  pose proof (qsum_diff K2 (fun k => oq (dot NU K1 s (fun l => t l k))) (fun k => qsum K1 (fun l => oq (s l) * oq (t l k))) (fun k => oq (a k)) (qn K1 * w) (nw0 K1)) as HD.
  assert (HD' : forall k, (k < K2)%nat -> oq (dot NU K1 s (fun l => t l k)) <= qsum K1 (fun l => oq (s l) * oq (t l k)) /\ qsum K1 (fun l => oq (s l) * oq (t l k)) <= oq (dot NU K1 s (fun l => t l k)) + qn K1 * w).
  { intros k Hk. destruct (dot_some _ _ _ _ E k Hk) as (D & _). destruct (dot NU K1 s (fun l => t l k)) as [x|] eqn:Ex; [|congruence]. cbn [FixedProof.oq]. apply (dot_bound frac Hf _ _ _ _ Ex). }
  specialize (HD HD'). apply Qabs_le_iff in HD. apply Qabs_le_iff. pose proof (nw0 K2). cbv beta in *.
  match type of B1 with (_ <= ?X)%Q => set (S1 := X) in * end. match type of HD with (_ <= ?X - ?Y /\ _)%Q => set (S2 := Y) in * end.
  set (W := qsum K2 (fun k => Qabs (oq (a k)))) in *. split; lra.
Qed.
(** the same with the matrix product on the other side *)
Lemma mat_err' K1 K2 (a : nat -> option Z) (s : nat -> nat -> option Z) (t : nat -> option Z) r :
  dot NU K2 a (fun k => dot NU K1 (s k) t) = Some r ->
  Qabs (v r - qsum K2 (fun k => oq (a k) * qsum K1 (fun l => oq (s k l) * oq (t l)))) <= qn K2 * w + qn K1 * w * qsum K2 (fun k => Qabs (oq (a k))).
Proof.
  intros E. pose proof (dot_bound frac Hf _ _ _ _ E) as [B1 B2].
  pose proof (qsum_diff K2 (fun k => oq (dot NU K1 (s k) t)) (fun k => qsum K1 (fun l => oq (s k l) * oq (t l))) (fun k => oq (a k)) (qn K1 * w) (nw0 K1)) as HD.
  assert (HD' : forall k, (k < K2)%nat -> oq (dot NU K1 (s k) t) <= qsum K1 (fun l => oq (s k l) * oq (t l)) /\ qsum K1 (fun l => oq (s k l) * oq (t l)) <= oq (dot NU K1 (s k) t) + qn K1 * w).
  { intros k Hk. destruct (dot_some _ _ _ _ E k Hk) as (_ & D). destruct (dot NU K1 (s k) t) as [x|] eqn:Ex; [|congruence]. cbn [FixedProof.oq]. apply (dot_bound frac Hf _ _ _ _ Ex). }
  specialize (HD HD'). apply Qabs_le_iff in HD. apply Qabs_le_iff. pose proof (nw0 K2). cbv beta in *.
  rewrite (qsum_ext K2 (fun k => oq (a k) * oq (dot NU K1 (s k) t)) (fun k => oq (dot NU K1 (s k) t) * oq (a k))) in B1, B2 by (intros; ring).
  rewrite (qsum_ext K2 (fun k => oq (a k) * qsum K1 (fun l => oq (s k l) * oq (t l))) (fun k => qsum K1 (fun l => oq (s k l) * oq (t l)) * oq (a k))) by (intros; ring).
  match type of B1 with (_ <= ?X)%Q => set (S1 := X) in * end. match type of HD with (_ <= ?X - ?Y /\ _)%Q => set (S2 := Y) in * end.
  set (W := qsum K2 (fun k => Qabs (oq (a k)))) in *. split; lra.
Qed.

Lemma sub_val a b : v (a - b) == v a - v b.
Proof. unfold Z.sub. rewrite (fval_add frac Hf), (v_opp frac Hf). ring. Qed.
Lemma addo o a b : o = b_add NU a b -> o <> None -> a <> None /\ b <> None /\ oq o == oq a + oq b.
Proof. intros -> D. destruct a as [a|]; [|cbn in D; congruence]. destruct b as [b|]; [|cbn in D; congruence]. split; [discriminate|]. split; [discriminate|]. cbn. apply fval_add, Hf. Qed.
Lemma subo o a b : o = b_sub NU a b -> o <> None -> a <> None /\ b <> None /\ oq o == oq a - oq b.
Proof. intros -> D. destruct a as [a|]; [|cbn in D; congruence]. destruct b as [b|]; [|cbn in D; congruence]. split; [discriminate|]. split; [discriminate|]. cbn. apply sub_val. Qed.
Lemma dot1o K f g : (1 <= K)%nat -> dot1 NU K f g <> None -> oq (dot1 NU K f g) <= qsum K (fun k => oq (f k) * oq (g k)) /\ qsum K (fun k => oq (f k) * oq (g k)) <= oq (dot1 NU K f g) + qn K * w.
Proof. intros HK D. destruct (dot1 NU K f g) as [r|] eqn:E; [|congruence]. apply (dot1_bound frac Hf _ _ _ _ HK E). Qed.
Lemma mato K1 K2 (s : nat -> option Z) (t : nat -> nat -> option Z) (a : nat -> option Z) : let r := dot NU K2 (fun k => dot NU K1 s (fun l => t l k)) a in r <> None ->
  Qabs (oq r - qsum K2 (fun k => qsum K1 (fun l => oq (s l) * oq (t l k)) * oq (a k))) <= qn K2 * w + qn K1 * w * qsum K2 (fun k => Qabs (oq (a k))).
Proof. intros r D. destruct r as [x|] eqn:E; [|congruence]. apply mat_err, E. Qed.
Lemma mato' K1 K2 (a : nat -> option Z) (s : nat -> nat -> option Z) (t : nat -> option Z) : let r := dot NU K2 a (fun k => dot NU K1 (s k) t) in r <> None ->
  Qabs (oq r - qsum K2 (fun k => oq (a k) * qsum K1 (fun l => oq (s k l) * oq (t l)))) <= qn K2 * w + qn K1 * w * qsum K2 (fun k => Qabs (oq (a k))).
Proof. intros r D. destruct r as [x|] eqn:E; [|congruence]. apply mat_err', E. Qed.
End Steps.

Section Calls.
Variables (c : cfg) (bits frac : Z).
Hypothesis Hf : (0 <= frac)%Z.
Notation NC := (fx_num bits frac true true).
Notation NU := (unlimited frac).
Notation w := (ulp frac).
Notation qc := (qcell frac).

Theorem fx_control n m (k k' : control Z) (f f' : kalman Z) : (1 <= n)%nat -> (1 <= m)%nat -> kf_valid c n f -> ct_valid c n m k -> control_ c NC n m k f = Ok (k', f') ->
  let B := qc m (ct_B k) in let u := qc 1 (ct_u k) in let Qu := qc m (ct_Q k) in
  (forall i, (i < n)%nat -> let e := qc 1 (kf_x f) i 0 + qsum m (fun l => B i l * u l 0%nat) in e - qn m * w <= qc 1 (kf_x f') i 0 /\ qc 1 (kf_x f') i 0 <= e) /\
  (forall i j, (i < n)%nat -> (j < n)%nat ->
     Qabs (qc n (kf_P f') i j - (qc n (kf_P f) i j + qsum m (fun p => qsum m (fun l => B i l * Qu l p) * B j p))) <= qn m * w * (1 + qsum m (fun p => Qabs (B j p)))).
Proof.
  intros Hn Hm Hv Hk E. cbv zeta. apply (nsim_ok _ _ _ (nsim_control c NC NU (fx_unlimited bits frac) n m k f)) in E.
  pose proof (control_wp c NU n m k f Hk Hv) as HW. rewrite E in HW. cbn [wp] in HW. destruct HW as (_ & _ & Vf' & _). destruct Vf' as (_ & Vx' & VP' & _).
  destruct (control_bits c NU n m k k' f f' Hn Hm Hv Hk E) as (HX & HP). split.
  - intros i Hi. destruct (addo frac Hf _ _ _ (HX i Hi) (cell_def c n 1 _ Vx' i 0%nat Hi (le_n 1))) as (_ & D & EV). destruct (dot1o frac Hf _ _ _ Hm D) as [B1 B2].
    change (qc 1 (kf_x f') i 0) with (oq frac (cell 1 (kf_x f') i 0)). rewrite EV. change (qc 1 (kf_x f) i 0) with (oq frac (cell 1 (kf_x f) i 0)).
    change (qsum m (fun l => qc m (ct_B k) i l * qc 1 (ct_u k) l 0)) with (qsum m (fun k0 => oq frac (cell m (ct_B k) i k0) * oq frac (cell 1 (ct_u k) k0 0))).
    unfold b_prodv. clear - B1 B2. split; lra.
  - intros i j Hi Hj. destruct (addo frac Hf _ _ _ (HP i j Hi Hj) (cell_def c n n _ VP' i j Hi Hj)) as (_ & D & EV).
    pose proof (mato frac Hf m m (fun l => cell m (ct_B k) i l) (fun l p => cell m (ct_Q k) l p) (fun p => cell m (ct_B k) j p) D) as B.
    change (qc n (kf_P f') i j) with (oq frac (cell n (kf_P f') i j)). rewrite EV. change (qc n (kf_P f) i j) with (oq frac (cell n (kf_P f) i j)).
    change (qsum m (fun p => qsum m (fun l => qc m (ct_B k) i l * qc m (ct_Q k) l p) * qc m (ct_B k) j p)) with
      (qsum m (fun p => qsum m (fun l => oq frac (cell m (ct_B k) i l) * oq frac (cell m (ct_Q k) l p)) * oq frac (cell m (ct_B k) j p))).
    change (qsum m (fun p => Qabs (qc m (ct_B k) j p))) with (qsum m (fun p => Qabs (oq frac (cell m (ct_B k) j p)))).
    unfold b_prodt, b_prod in *. set (r := oq frac (dot _ _ _ _)) in *. set (S := qsum m _) in *. set (W := qsum m _) in *. set (a := oq frac _).
    setoid_replace (a + r - (a + S)) with (r - S) by ring. eapply Qle_trans; [exact B|]. apply Qle_lteq. right. ring.
Qed.

Theorem fx_correct n m (o o' : observation Z) (f f' : kalman Z) : (1 <= n)%nat -> (1 <= m)%nat -> ob_valid c n m o -> kf_valid c n f -> correct c NC n m o f = Ok (o', f') ->
  let H := qc n (ob_H o) in let z := qc 1 (ob_z o) in let x := qc 1 (kf_x f) in let P := qc n (kf_P f) in
  let y := qc 1 (ob_y o') in let Si := qc m (ob_Sinv o') in let K := qc m (ob_K o') in
  (forall i, (i < m)%nat -> let e := z i 0%nat - qsum n (fun l => H i l * x l 0%nat) in e <= y i 0%nat /\ y i 0%nat <= e + qn n * w) /\
  (forall i j, (i < n)%nat -> (j < m)%nat -> Qabs (K i j - qsum m (fun p => qsum n (fun l => P i l * H p l) * Si p j)) <= qn m * w + qn n * w * qsum m (fun p => Qabs (Si p j))) /\
  (forall i, (i < n)%nat -> let e := x i 0%nat + qsum m (fun l => K i l * y l 0%nat) in e - qn m * w <= qc 1 (kf_x f') i 0 /\ qc 1 (kf_x f') i 0 <= e) /\
  (forall i j, (i < n)%nat -> (j < n)%nat -> Qabs (qc n (kf_P f') i j - (P i j - qsum m (fun p => K i p * qsum n (fun l => H p l * P l j)))) <= qn m * w + qn n * w * qsum m (fun p => Qabs (K i p))).
Proof.
  intros Hn Hm Ho Hv E. cbv zeta. apply (nsim_ok _ _ _ (nsim_correct c NC NU (fx_unlimited bits frac) n m o f)) in E.
  pose proof (correct_wp c NU n m o f Hn Hm Ho Hv) as HW. rewrite E in HW. cbn [wp] in HW. destruct HW as (Vo' & _ & (_ & Vx' & VP' & _) & _).
  destruct Vo' as (_ & _ & _ & Vy' & _ & VK' & _).
  destruct (correct_bits' Z c NU n m o o' f f' Hn Hm Ho Hv E) as (HY & S & _ & _ & _ & HK & HX & HP). split; [|split; [|split]].
  - intros i Hi. destruct (subo frac Hf _ _ _ (HY i Hi) (cell_def c m 1 _ Vy' i 0%nat Hi (le_n 1))) as (_ & D & EV). destruct (dot1o frac Hf _ _ _ Hn D) as [B1 B2].
    change (qc 1 (ob_y o') i 0) with (oq frac (cell 1 (ob_y o') i 0)). rewrite EV. change (qc 1 (ob_z o) i 0) with (oq frac (cell 1 (ob_z o) i 0)).
    change (qsum n (fun l => qc n (ob_H o) i l * qc 1 (kf_x f) l 0)) with (qsum n (fun k0 => oq frac (cell n (ob_H o) i k0) * oq frac (cell 1 (kf_x f) k0 0))).
    unfold b_prodv. clear - B1 B2. split; lra.
  - intros i j Hi Hj. pose proof (cell_def c n m _ VK' i j Hi Hj) as D. rewrite (HK i j Hi Hj) in D.
    pose proof (mato frac Hf n m (fun l => cell n (kf_P f) i l) (fun l p => cell n (ob_H o) p l) (fun p => cell m (ob_Sinv o') p j) D) as B. cbv zeta in B.
    change (qc m (ob_K o') i j) with (oq frac (cell m (ob_K o') i j)). rewrite (HK i j Hi Hj). exact B.
  - intros i Hi. destruct (addo frac Hf _ _ _ (HX i Hi) (cell_def c n 1 _ Vx' i 0%nat Hi (le_n 1))) as (_ & D & EV). destruct (dot1o frac Hf _ _ _ Hm D) as [B1 B2].
    change (qc 1 (kf_x f') i 0) with (oq frac (cell 1 (kf_x f') i 0)). rewrite EV. change (qc 1 (kf_x f) i 0) with (oq frac (cell 1 (kf_x f) i 0)).
    change (qsum m (fun l => qc m (ob_K o') i l * qc 1 (ob_y o') l 0)) with (qsum m (fun k0 => oq frac (cell m (ob_K o') i k0) * oq frac (cell 1 (ob_y o') k0 0))).
    unfold b_prodv. clear - B1 B2. split; lra.
  - intros i j Hi Hj. destruct (subo frac Hf _ _ _ (HP i j Hi Hj) (cell_def c n n _ VP' i j Hi Hj)) as (_ & D & EV).
    pose proof (mato' frac Hf n m (fun p => cell m (ob_K o') i p) (fun p l => cell n (ob_H o) p l) (fun l => cell n (kf_P f) l j) D) as B. cbv zeta in B.
    change (qc n (kf_P f') i j) with (oq frac (cell n (kf_P f') i j)). rewrite EV. change (qc n (kf_P f) i j) with (oq frac (cell n (kf_P f) i j)).
    change (qsum m (fun p => qc m (ob_K o') i p * qsum n (fun l => qc n (ob_H o) p l * qc n (kf_P f) l j))) with
      (qsum m (fun p => oq frac (cell m (ob_K o') i p) * qsum n (fun l => oq frac (cell n (ob_H o) p l) * oq frac (cell n (kf_P f) l j)))).
    change (qsum m (fun p => Qabs (qc m (ob_K o') i p))) with (qsum m (fun p => Qabs (oq frac (cell m (ob_K o') i p)))).
    unfold b_prod in *. set (r := oq frac (dot _ _ _ _)) in *. set (S' := qsum m _) in *. set (W := qsum m _) in *. set (a := oq frac _).
    setoid_replace (a - r - (a - S')) with (- (r - S')) by ring. rewrite Qabs_opp. exact B.
Qed.
End Calls.
