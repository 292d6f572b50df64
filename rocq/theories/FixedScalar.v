(** * Fixed point: a correction by a scalar measurement, its range and its distance from the exact one *)
From Coq Require Import ZArith QArith Qabs Lia Lqa Psatz.
From Verif Require Import Prelude Spec SpecBits SpecDefined Matrix Filter SpecFilter Kernels FilterTwo FixedNum SpecFixed SpecFixedRange NumSim BitsProof Defined FixedProof FixedRange FixedSteps FixedStable.
Open Scope Q_scope.

(** ** root, reciprocal, square *)
Section Inv.
Variables (frac : Z).
Hypothesis Hf : (0 <= frac)%Z.
Notation w := (ulp frac).
Notation v := (fval frac).
Notation B := (2 ^ frac)%Z.

Lemma w_le1 : w <= 1.
Proof. unfold ulp. pose proof (Bpos frac Hf). apply Qle_shift_div_r; [apply QBpos, Hf|]. rewrite Qmult_1_l. change 1 with (inject_Z 1). rewrite <- Zle_Qle. lia. Qed.
Lemma v_mul_B a b : v a * v b == inject_Z (a * b) / (inject_Z B * inject_Z B).
Proof. unfold fval. rewrite inject_Z_mult. field. apply QB0, Hf. Qed.
Lemma v_B s : v s == inject_Z (s * B) / (inject_Z B * inject_Z B).
Proof. unfold fval. rewrite inject_Z_mult. field. apply QB0, Hf. Qed.
Lemma BB_pos : 0 < inject_Z B * inject_Z B.
Proof. apply Qmult_lt_0_compat; apply QBpos, Hf. Qed.
Lemma div_le a b : (a <= b)%Z -> inject_Z a / (inject_Z B * inject_Z B) <= inject_Z b / (inject_Z B * inject_Z B).
Proof. intros H. unfold Qdiv. apply Qmult_le_compat_r; [rewrite <- Zle_Qle; exact H|]. apply Qlt_le_weak, Qinv_lt_0_compat, BB_pos. Qed.
Lemma v_1 : v 1 == w.
Proof. unfold fval, ulp. reflexivity. Qed.
Lemma v_one : v B == 1.
Proof. unfold fval. field. apply QB0, Hf. Qed.

Definition fx_l (s : Z) : Z := Z.sqrt (s * B).
Definition fx_r (s : Z) : Z := Z.quot (B * B) (fx_l s).
Definition fx_si (s : Z) : Z := (fx_r s * fx_r s / B)%Z.

Lemma inv_facts s : (0 < s)%Z -> let l := v (fx_l s) in let r := v (fx_r s) in
  (0 < fx_l s)%Z /\ w <= l /\ l * l <= v s /\ v s <= (l + w) * (l + w) /\ 0 <= r /\ r * l <= 1 /\ 1 <= r * l + l * w.
Proof.
  intros Hs. cbv zeta. pose proof (Bpos frac Hf) as HB. set (L := fx_l s). set (R := fx_r s).
  assert (SB : (1 <= s * B)%Z) by (apply (Z.mul_le_mono_nonneg 1 s 1 B); lia). assert (B2 : (0 <= B * B)%Z) by (apply Z.mul_nonneg_nonneg; lia).
  assert (L1 : (1 <= L)%Z). { unfold L, fx_l. change 1%Z with (Z.sqrt 1). apply Z.sqrt_le_mono. exact SB. }
  pose proof (Z.sqrt_spec (s * B) ltac:(lia)) as (S1 & S2). change (Z.sqrt (s * B)) with L in S1, S2.
  assert (ER : (R = B * B / L)%Z). { unfold R, fx_r. fold L. apply Z.quot_div_nonneg; lia. }
  pose proof (Z.mod_pos_bound (B * B) L ltac:(lia)) as M1. pose proof (Z.div_mod (B * B) L ltac:(lia)) as M2. rewrite <- ER in M2.
  assert (R0 : (0 <= R)%Z). { rewrite ER. apply Z.div_pos; lia. }
  split; [lia|]. split; [rewrite <- v_1; apply (proj2 (fval_le frac Hf _ _)); lia|].
  split; [rewrite v_mul_B, (v_B s); apply div_le; lia|].
  split; [rewrite <- v_1, <- (fval_add frac Hf), v_mul_B, (v_B s); apply div_le; lia|].
  split; [rewrite <- (v_0 frac Hf); apply (proj2 (fval_le frac Hf _ _)); exact R0|].
  assert (E1 : 1 == inject_Z (B * B) / (inject_Z B * inject_Z B)) by (rewrite inject_Z_mult; field; apply QB0, Hf).
  split.
  - rewrite v_mul_B, E1. apply div_le. nia.
  - rewrite <- v_1, !v_mul_B, E1. setoid_replace (inject_Z (R * L) / (inject_Z B * inject_Z B) + inject_Z (L * 1) / (inject_Z B * inject_Z B)) with (inject_Z (R * L + L * 1) / (inject_Z B * inject_Z B)).
    + apply div_le. nia.
    + rewrite inject_Z_plus. field. apply QB0, Hf.
Qed.

Lemma inv_bounds s g : 1 <= g -> 1 <= g * v s -> let l := v (fx_l s) in let r := v (fx_r s) in
  (0 < s)%Z /\ (0 < fx_l s)%Z /\ 0 <= r /\ r <= 2 * g /\ 0 <= v (fx_si s) /\ v (fx_si s) <= 4 * g /\ Qabs (v (fx_si s) - 1 / v s) <= 6 * g * g * w.
Proof.
  intros Hg Hs. cbv zeta. pose proof (wpos frac Hf) as Hw. pose proof w_le1 as Hw1.
  assert (S0 : 0 < v s) by nra. assert (Zs : (0 < s)%Z). { apply (proj1 (v_lt frac Hf _ _)). rewrite (v_0 frac Hf). exact S0. }
  destruct (inv_facts s Zs) as (L0 & F1 & F2 & F3 & F4 & F5 & F6). pose proof (mul_down frac Hf (fx_r s) (fx_r s)) as G1. pose proof (mul_up frac Hf (fx_r s) (fx_r s)) as G2. fold (fx_si s) in G1, G2.
  assert (G0 : 0 <= v (fx_si s)).
  { rewrite <- (v_0 frac Hf). apply (proj2 (fval_le frac Hf _ _)). unfold fx_si. apply Z.div_pos; [|apply Bpos, Hf]. apply Z.square_nonneg. }
  split; [exact Zs|]. split; [exact L0|]. split; [exact F4|].
  set (l := v (fx_l s)) in *. set (r := v (fx_r s)) in *. set (si := v (fx_si s)) in *. set (sg := v s) in *. set (ww := w) in *. clearbody l r si sg ww.
  assert (l0 : 0 < l) by lra. set (a := 1 / l). assert (Ea : a * l == 1) by (unfold a; field; lra). assert (a0 : 0 < a) by (unfold a; apply Qlt_shift_div_l; lra).
  set (b := 1 / sg). assert (Eb : b * sg == 1) by (unfold b; field; lra). assert (b0 : 0 < b) by (unfold b; apply Qlt_shift_div_l; lra).
  clearbody a b.
  assert (ra : r <= a) by nra. assert (bg : b <= g) by nra.
  assert (a4 : a * a <= 4 * g).
  { assert (sg <= 4 * (l * l)) by nra. assert (1 <= 4 * g * (l * l)) by nra.
    assert (E : a * a * (4 * g * (l * l)) == 4 * g * ((a * l) * (a * l))) by ring. rewrite Ea in E. nra. }
  assert (a2 : a <= 2 * g) by nra.
  assert (rr : r * r <= a * a) by nra.
  split; [lra|]. split; [exact G0|]. split; [lra|]. apply Qabs_le_iff.
  assert (U : a * a - b <= 6 * g * g * ww).
  { assert (E : a * a - b == (a * a) * b * (sg - l * l)).
    { setoid_replace ((a * a) * b * (sg - l * l)) with ((a * a) * (b * sg) - b * ((a * l) * (a * l))) by ring. rewrite Ea, Eb. ring. }
    assert (H1 : sg - l * l <= 3 * l * ww) by nra.
    assert (H2 : (a * a) * b * (sg - l * l) <= (a * a) * b * (3 * l * ww)). { rewrite !(Qmult_comm (a * a * b)). apply Qmult_le_compat_r; [exact H1|]. apply Qmult_le_0_compat; [nra|lra]. }
    assert (E2 : (a * a) * b * (3 * l * ww) == 3 * (a * b) * ww * (a * l)) by ring. rewrite Ea in E2.
    assert (H3 : a * b <= 2 * g * g) by nra. nra. }
  split; [|lra].
  assert (Hr : a - ww <= r). { assert (a * 1 <= a * (r * l + l * ww)) by nra. assert (E : a * (r * l + l * ww) == (a * l) * (r + ww)) by ring. rewrite Ea in E. lra. }
  assert (Hb : b <= a * a). { assert (E : a * a * sg * b == a * a * (b * sg)) by ring. rewrite Eb in E. assert (1 <= a * a * sg). { assert (E3 : a * a * (l * l) == (a * l) * (a * l)) by ring. rewrite Ea in E3. nra. } nra. }
  assert (H : a * a - 2 * a * ww <= r * r). { destruct (Qlt_le_dec a ww) as [C|C]; nra. }
  assert (H5 : 2 * a * ww <= 4 * g * ww) by nra. assert (H6 : 4 * g * ww + ww <= 6 * g * g * ww) by nra. lra.
Qed.
End Inv.

Lemma qsum_const K (a : Q) : qsum K (fun _ => a) == qn K * a.
Proof. induction K as [|K IH]; cbn [qsum]; [change (qn 0) with 0; ring|]. rewrite IH, qn_S. ring. Qed.
Lemma qabs_mul a b A B : Qabs a <= A -> Qabs b <= B -> Qabs (a * b) <= A * B.
Proof. intros H1 H2. rewrite Qabs_Qmult. pose proof (Qabs_nonneg a). pose proof (Qabs_nonneg b). nra. Qed.
Lemma qsum1 f : qsum 1 f == f 0%nat.
Proof. cbn [qsum]. ring. Qed.

Section Scalar.
Variables (c : cfg) (bits frac : Z).
Hypothesis Hf : (0 <= frac)%Z.
Notation NC := (fx_num bits frac true true).
Notation NU := (unlimited frac).
Notation w := (ulp frac).
Notation top := (fx_top bits frac).
Notation v := (fval frac).
Notation qc := (qcell frac).
Notation qmost := (q_at_most frac).

(** what is computed on the way *)
Variables (n : nat) (o : observation Z) (f : kalman Z) (M g : Q).
Hypotheses (Hn : (1 <= n)%nat) (Hv : kf_valid c n f) (Ho : ob_valid c n 1 o).
Hypotheses (Bx : qmost n 1 (kf_x f) M) (BP : qmost n n (kf_P f) M) (BH : qmost 1 n (ob_H o) M) (Bz : qmost 1 1 (ob_z o) M) (BR : qmost 1 1 (ob_R o) M).
Hypotheses (HM : 1 <= M) (Hg : 1 <= g).
Notation H := (fun l => qc n (ob_H o) 0 l). Notation P := (fun l k => qc n (kf_P f) l k).
Notation x := (fun l => qc 1 (kf_x f) l 0). Notation z := (qc 1 (ob_z o) 0 0). Notation R := (qc 1 (ob_R o) 0 0).
Notation N := (qn n). Notation p := (qn n * M).
Notation Se := (q_innovation_variance n H P R).

Lemma N1 : 1 <= N. Proof. apply qn_ge1, Hn. Qed.
Lemma p1 : 1 <= p. Proof. pose proof N1. nra. Qed.
Lemma Mp : M <= p. Proof. pose proof N1. nra. Qed.
Lemma Np : N <= p. Proof. pose proof N1. nra. Qed.
Lemma H_row : qsum n (fun l => Qabs (H l)) <= p.
Proof. rewrite <- (qsum_const n M). apply qsum_le. intros l Hl. apply BH; auto. Qed.
Lemma P_row i : (i < n)%nat -> qsum n (fun l => Qabs (P i l)) <= p.
Proof. intros Hi. rewrite <- (qsum_const n M). apply qsum_le. intros l Hl. apply BP; auto. Qed.
Lemma hx_abs : qsum n (fun l => Qabs (H l * x l)) <= p * M.
Proof. apply (qdot_abs n H x p M); [lra|apply H_row|]. intros l Hl. apply Bx; auto. Qed.
Lemma hP_abs k : (k < n)%nat -> qsum n (fun l => Qabs (H l * P l k)) <= p * M.
Proof. intros Hk. apply (qdot_abs n H (fun l => P l k) p M); [lra|apply H_row|]. intros l Hl. apply BP; auto. Qed.
Lemma Ph_abs i : (i < n)%nat -> qsum n (fun l => Qabs (P i l * H l)) <= p * M.
Proof. intros Hi. apply (qdot_abs n (fun l => P i l) H p M); [lra|apply P_row, Hi|]. intros l Hl. apply BH; auto. Qed.

Hypothesis HR : 32 * g * (p * p) * (M * M) <= top.
Lemma Nw : 0 <= N * w /\ N * w <= p.
Proof. pose proof (wpos frac Hf). pose proof (w_le1 frac Hf). pose proof N1. pose proof Np. split; nra. Qed.
(** everything below fits *)
Lemma room a : a <= 32 * g * (p * M) * (p * M) -> a <= top.
Proof. intros Ha. eapply Qle_trans; [exact Ha|]. eapply Qle_trans; [|exact HR]. apply Qle_lteq. right. ring. Qed.
Lemma pM1 : 1 <= p * M /\ p <= p * M /\ M <= p * M /\ p <= (p * M) * (p * M) /\ p * M <= (p * M) * (p * M).
Proof. pose proof p1. pose proof Mp. set (q := p) in *. clearbody q. assert (1 <= q * M) by nra. assert (q <= q * M) by nra. assert (M <= q * M) by nra. assert (q * M <= (q * M) * (q * M)) by nra. repeat split; lra. Qed.

Lemma room_q a : a <= 32 * (p * M) -> a <= top.
Proof. intros Ha. pose proof pM1 as (q1 & _ & _ & _ & q5). apply room. set (q := p * M) in *. clearbody q. assert (q * q <= g * (q * q)) by (assert (0 <= q * q) by nra; nra). nra. Qed.
Lemma room_qq a : a <= 32 * (p * M * (p * M)) -> a <= top.
Proof. intros Ha. pose proof pM1 as (q1 & _ & _ & _ & q5). apply room. set (q := p * M) in *. clearbody q. assert (q * q <= g * (q * q)) by (assert (0 <= q * q) by nra; nra). nra. Qed.
Ltac rm := cbv beta in *; apply room_q; lra.

Hypothesis HS : 1 + g * (N * w * (1 + p)) <= g * Se.

Lemma hx_o : qsum n (fun k => Qabs (oq frac (cell n (ob_H o) 0 k) * oq frac (cell 1 (kf_x f) k 0))) <= p * M.
Proof. exact hx_abs. Qed.
Lemma hP_o k : (k < n)%nat -> qsum n (fun l => Qabs (oq frac (cell n (ob_H o) 0 l) * oq frac (cell n (kf_P f) l k))) <= p * M.
Proof. exact (hP_abs k). Qed.
Lemma Ph_o i : (i < n)%nat -> qsum n (fun l => Qabs (oq frac (cell n (kf_P f) i l) * oq frac (cell n (ob_H o) 0 l))) <= p * M.
Proof. exact (Ph_abs i). Qed.
Lemma hPh_o : qsum n (fun k => (qsum n (fun l => Qabs (oq frac (cell n (ob_H o) 0 l) * oq frac (cell n (kf_P f) l k))) + N * w) * Qabs (oq frac (cell n (ob_H o) 0 k))) <= p * (p * M + N * w).
Proof. pose proof p1 as pp. exact (qmat_abs n n H P H p M (N * w) ltac:(lra) ltac:(lra) (proj1 Nw) H_row ltac:(intros; apply BP; auto) H_row). Qed.

(** S is computed in every build, and is at least 1/g *)
Lemma S_ok : exists s, b_add NC (b_prodt NC n (b_prod NC n (cell n (ob_H o)) (cell n (kf_P f))) (cell n (ob_H o)) 0 0) (cell 1 (ob_R o) 0 0) = Some s /\
  b_add NU (b_prodt NU n (b_prod NU n (cell n (ob_H o)) (cell n (kf_P f))) (cell n (ob_H o)) 0 0) (cell 1 (ob_R o) 0 0) = Some s /\ 1 <= g * v s /\ Qabs (v s - Se) <= N * w * (1 + p).
Proof.
  pose proof Hv as (VA & Vx & VP & VQ & _ & _). pose proof Ho as (VH & Vz & VR & _).
  pose proof pM1 as (q1 & q2 & q3 & q4 & q5). pose proof Nw as (nw0' & nw1). pose proof p1 as pp. pose proof (wpos frac Hf) as Hw. pose proof Mp as Mp'. pose proof hPh_o as HH.
  assert (HHb : p * (p * M + N * w) <= 2 * (p * M * (p * M))). { set (q := p) in *. clearbody q. set (e := N * w) in *. clearbody e. assert (q * e <= q * q) by nra. assert (q * q <= q * q * (M * M)) by nra. assert (q * (q * M) <= (q * q) * (M * M)) by nra. nra. }
  destruct (mat_ok bits frac Hf n n (fun l => cell n (ob_H o) 0 l) (fun l k => cell n (kf_P f) l k) (fun k => cell n (ob_H o) 0 k)) as (r & E1 & (B1 & B2) & E2).
  - intros l Hl. apply (cell_def c 1 n); auto.
  - intros l k Hl Hk. apply (cell_def c n n); auto.
  - intros k Hk. apply (cell_def c 1 n); auto.
  - intros k Hk. pose proof (hP_o k Hk) as D. rm.
  - apply room_qq. lra.
  - pose proof (cell_def c 1 1 _ VR 0%nat 0%nat (le_n 1) (le_n 1)) as DR. pose proof (BR 0%nat 0%nat (le_n 1) (le_n 1)) as BR'.
    pose proof (mat_err frac Hf n n (fun l => cell n (ob_H o) 0 l) (fun l k => cell n (kf_P f) l k) (fun k => cell n (ob_H o) 0 k) r E2) as ER. cbv beta in ER.
    change (qsum n (fun k => qsum n (fun l => oq frac (cell n (ob_H o) 0 l) * oq frac (cell n (kf_P f) l k)) * oq frac (cell n (ob_H o) 0 k))) with (qsum n (fun k => qsum n (fun l => H l * P l k) * H k)) in ER.
    pose proof H_row as HR1. change (qsum n (fun k => Qabs (oq frac (cell n (ob_H o) 0 k)))) with (qsum n (fun l => Qabs (H l))) in ER.
    assert (ER2 : N * w + N * w * qsum n (fun l => Qabs (H l)) <= N * w * (1 + p)). { set (a := qsum n (fun l => Qabs (H l))) in *. nra. }
    unfold b_prodt, b_prod. rewrite E1, E2. unfold q_innovation_variance in *. unfold qcell at 1 in BR'. unfold qcell at 4 in HS. unfold qcell at 4.
    destruct (cell 1 (ob_R o) 0 0) as [rr|]; [|congruence]. cbn [b_add obind]. exists (r + rr)%Z.
    assert (EQ : Qabs (v (r + rr) - (qsum n (fun k => qsum n (fun l => H l * P l k) * H k) + v rr)) <= N * w * (1 + p)).
    { rewrite (fval_add frac Hf). setoid_replace (v r + v rr - (qsum n (fun k => qsum n (fun l => H l * P l k) * H k) + v rr)) with (v r - qsum n (fun k => qsum n (fun l => H l * P l k) * H k)) by ring.
      eapply Qle_trans; [exact ER|exact ER2]. }
    split; [|split; [reflexivity|split; [|exact EQ]]].
    + set (S := qsum n _) in B1, B2. assert (HS' : S <= p * (p * M + N * w)) by exact HH. rewrite <- (add_ok' bits frac Hf rr r (p * (p * M + N * w)) (N * w)).
      * reflexivity.
      * apply room_qq. lra.
      * apply (nwpos frac Hf n Hn).
      * lra.
      * lra.
    + apply Qabs_le_iff in EQ. destruct EQ as [EQ _]. set (T := qsum n _ + v rr) in *. set (e := N * w * (1 + p)) in *. clearbody T e. nra.
Qed.

Lemma room_g a : a <= 32 * g * (p * M * (p * M)) -> a <= top.
Proof. intros Ha. apply room. rewrite <- Qmult_assoc. exact Ha. Qed.

Theorem scalar_defined : can_correct NC n 1 (cell n (ob_H o)) (cell 1 (ob_z o)) (cell 1 (ob_R o)) (cell 1 (kf_x f)) (cell n (kf_P f)).
Proof.
  pose proof Hv as (VA & Vx & VP & VQ & _ & _). pose proof Ho as (VH & Vz & VR & _).
  pose proof pM1 as (q1 & q2 & q3 & q4 & q5). pose proof Nw as (nw0' & nw1). pose proof p1 as pp. pose proof (wpos frac Hf) as Hw. pose proof (w_le1 frac Hf) as Hw1. pose proof N1 as NN1.
  (* y *)
  assert (EY : exists y, b_sub NC (cell 1 (ob_z o) 0 0) (b_prodv NC n (cell n (ob_H o)) (cell 1 (kf_x f)) 0 0) = Some y /\ Qabs (v y) <= 3 * (p * M)).
  { pose proof hx_o as D. destruct (dot1_ok bits frac Hf n (fun k => cell n (ob_H o) 0 k) (fun k => cell 1 (kf_x f) k 0) Hn) as (hx & Ehx & _ & Bhx).
    - intros k Hk. split; [apply (cell_def c 1 n)|apply (cell_def c n 1)]; auto.
    - rm.
    - pose proof (dot_mag frac Hf _ _ _ _ Bhx) as Mhx. cbv beta in Mhx. unfold b_prodv. rewrite Ehx.
      pose proof (cell_def c 1 1 _ Vz 0%nat 0%nat (le_n 1) (le_n 1)) as Dz. pose proof (Bz 0%nat 0%nat (le_n 1) (le_n 1)) as Bz'. unfold qcell in Bz'. destruct (cell 1 (ob_z o) 0 0) as [zz|]; [|congruence]. cbn [b_sub obind].
      exists (zz - hx)%Z. assert (By : Qabs (v (zz - hx)) <= 3 * (p * M)) by (rewrite (sub_val frac Hf); apply Qabs_le_iff in Mhx; apply Qabs_le_iff in Bz'; apply Qabs_le_iff; split; lra).
      split; [|exact By]. cbn. assert (T : 3 * (p * M) + 1 <= top) by rm. apply Qabs_le_iff in By. apply (res_ok bits frac Hf); lra. }
  destruct EY as (y & Ey & By).
  destruct S_ok as (s & Es & _ & Hs & _). destruct (inv_bounds frac Hf s g Hg Hs) as (s0 & l0 & r0 & r1 & i0 & i1 & _). cbv zeta in *.
  set (l := fx_l frac s) in *. set (r := fx_r frac s) in *. set (si := fx_si frac s) in *.
  assert (Tg : 4 * g + 1 <= top). { apply room_g. set (q := p * M * (p * M)) in *. assert (1 <= q) by lra. clearbody q. nra. }
  assert (Fr : o_recip NC l = Some r). { cbn. destruct (Z.eqb_spec l 0); [lia|]. fold r. change (Z.quot (2 ^ frac * 2 ^ frac) l) with r. apply (res_ok bits frac Hf); lra. }
  assert (Fi : o_mul NC r r = Some si). { cbn. change (r * r / 2 ^ frac)%Z with si. apply (res_ok bits frac Hf); lra. }
  assert (F1 : o_add NC (n_one NC) 0%Z = Some (n_one NC)). { cbn. rewrite Z.add_0_r. apply (res_ok bits frac Hf); rewrite (v_one frac Hf); lra. }
  assert (Fm : o_mul NC (n_one NC) r = Some r). { cbn. rewrite Z.mul_comm, Z.div_mul by (pose proof (Bpos frac Hf); lia). apply (res_ok bits frac Hf); lra. }
  assert (Fa : o_add NC r 0%Z = Some r). { cbn. rewrite Z.add_0_r. apply (res_ok bits frac Hf); lra. }
  (* the gain *)
  assert (EK : forall i, (i < n)%nat -> exists kk, b_prod NC 1 (b_prodt NC n (cell n (kf_P f)) (cell n (ob_H o))) (fun _ _ => Some si) i 0 = Some kk /\ Qabs (v kk) <= 9 * g * (p * M)).
  { intros i Hi. pose proof (Ph_o i Hi) as D. assert (P0 : 0 <= qsum n (fun l => Qabs (oq frac (cell n (kf_P f) i l) * oq frac (cell n (ob_H o) 0 l)))) by (apply qsum_pos; intros; apply Qabs_nonneg).
    assert (Ai : Qabs (v si) == v si) by (apply Qabs_pos; exact i0).
    assert (LE : (qsum n (fun l0 => Qabs (oq frac (cell n (kf_P f) i l0) * oq frac (cell n (ob_H o) 0 l0))) + N * w) * v si <= 2 * (p * M) * (4 * g)).
    { set (a := qsum n _) in *. set (q := p * M) in *. clearbody a q. apply Qle_trans with ((2 * q) * v si); [apply Qmult_le_compat_r; lra|]. rewrite (Qmult_comm (2 * q)), (Qmult_comm (2 * q)). apply Qmult_le_compat_r; lra. }
    destruct (mat_ok bits frac Hf n 1 (fun l0 => cell n (kf_P f) i l0) (fun l0 q => cell n (ob_H o) q l0) (fun _ => Some si)) as (kk & E1 & (B1 & B2) & _).
    - intros l1 Hl. apply (cell_def c n n); auto.
    - intros l1 q Hl Hq. apply (cell_def c 1 n); auto.
    - discriminate.
    - intros q Hq. replace q with 0%nat by lia. rm.
    - rewrite qsum1. change (qn 1) with 1. cbn [oq]. rewrite Ai. apply room_g. set (q := p * M) in *. clearbody q. assert (q <= q * q) by nra. assert (1 <= g * (q * q)) by nra. assert (g * q <= g * (q * q)) by nra. nra.
    - exists kk. split; [exact E1|]. change (qn 1) with 1 in B1. rewrite qsum1 in B1, B2. cbn [oq] in B1, B2. rewrite Ai in B1, B2. apply Qabs_le_iff. set (q := p * M) in *. clearbody q. assert (1 <= g * q) by nra. split; lra. }
  (* H P *)
  assert (EHP : forall k, (k < n)%nat -> exists hp, b_prod NC n (cell n (ob_H o)) (cell n (kf_P f)) 0 k = Some hp /\ Qabs (v hp) <= 2 * (p * M)).
  { intros k Hk. pose proof (hP_o k Hk) as D. destruct (dot_ok bits frac Hf n (fun l => cell n (ob_H o) 0 l) (fun l => cell n (kf_P f) l k)) as (hp & E1 & _ & B1).
    - intros l1 Hl. split; [apply (cell_def c 1 n)|apply (cell_def c n n)]; auto.
    - rm.
    - exists hp. split; [exact E1|]. pose proof (dot_mag frac Hf _ _ _ _ B1) as MM. cbv beta in MM. lra. }
  assert (TT : 27 * g * (p * M * (p * M)) + M + 2 <= top). { apply room_g. set (q := p * M) in *. assert (1 <= g * (q * q)) by (assert (1 <= q * q) by nra; nra). assert (M <= g * (q * q)) by (assert (M <= q * q) by lra; nra). clearbody q. lra. }
  set (K := b_prod NC 1 (b_prodt NC n (cell n (kf_P f)) (cell n (ob_H o))) (fun _ _ => Some si)) in *.
  exists (fun _ _ => Some y), (fun _ _ => Some s), (fun _ _ => Some l), (fun _ _ => Some si), (fun i _ => K i 0%nat),
    (fun i _ => b_add NC (cell 1 (kf_x f) i 0) (b_prodv NC 1 (fun i _ => K i 0%nat) (fun _ _ => Some y) i 0)),
    (fun i j => b_sub NC (cell n (kf_P f) i j) (b_prod NC 1 (fun i _ => K i 0%nat) (b_prod NC n (cell n (ob_H o)) (cell n (kf_P f))) i j)).
  split; [intros i Hi; replace i with 0%nat by lia; symmetry; exact Ey|].
  split; [intros i j Hi Hj; replace i with 0%nat by lia; replace j with 0%nat by lia; symmetry; exact Es|].
  split.
  { split; [|intros i j Hij; lia]. intros i Hi. replace i with 0%nat by lia. exists s, l, r. split; [reflexivity|]. split; [cbn; apply Z.leb_gt; exact s0|].
    split; [cbn; destruct (Z.ltb_spec s 0); [lia|reflexivity]|]. split; [exact Fr|]. split; [reflexivity|]. intros j Hj. lia. }
  split.
  { exists (fun _ _ => Some r). intros i Hi. replace i with 0%nat by lia. exists r. split; [exact Fr|]. intros j Hj. replace j with 0%nat by lia.
    split; [|split; [|reflexivity]].
    - change (Some r = b_mul NC (b_add NC (Some (n_one NC)) (Some 0%Z)) (Some r)). cbn [b_add obind]. rewrite F1. cbn [b_mul obind]. symmetry. exact Fm.
    - change (Some si = b_mul NC (b_add NC (Some r) (Some 0%Z)) (Some r)). cbn [b_add obind]. rewrite Fa. cbn [b_mul obind]. symmetry. exact Fi. }
  split; [intros i j Hi Hj; replace j with 0%nat by lia; reflexivity|].
  split; [reflexivity|]. split; [reflexivity|].
  split; [intros i j _ _; discriminate|]. split; [intros i j _ _; discriminate|]. split; [intros i j _ _; discriminate|].
  split; [intros i j Hi Hj; destruct (EK i Hi) as (kk & -> & _); discriminate|].
  split; [|split].
  - intros i j Hi Hj. destruct (EK i Hi) as (kk & Ek & Bk). unfold b_prodv. cbn [dot1]. rewrite Ek. cbn [obind].
    pose proof (qabs_mul _ _ _ _ Bk By) as BB. assert (E27 : 9 * g * (p * M) * (3 * (p * M)) == 27 * g * (p * M * (p * M))) by ring. rewrite E27 in BB.
    destruct (mul_ok bits frac Hf kk y) as (pr & M1 & _ & M2 & M3); [lra|]. rewrite M1.
    pose proof (cell_def c n 1 _ Vx i 0%nat Hi (le_n 1)) as Dx. pose proof (Bx i 0%nat Hi (le_n 1)) as Bx'. unfold qcell in Bx'. destruct (cell 1 (kf_x f) i 0) as [xx|]; [|congruence]. cbn [b_add obind].
    apply Qabs_le_iff in BB. apply Qabs_le_iff in Bx'. cbn. rewrite (res_ok bits frac Hf); [discriminate|rewrite (fval_add frac Hf); lra..].
  - intros i j Hi Hj. destruct (EK i Hi) as (kk & Ek & Bk). destruct (EHP j Hj) as (hp & Eh & Bh). unfold b_prod at 1. cbn [dot obind]. rewrite Ek. cbn [obind]. rewrite Eh. cbn [obind].
    pose proof (qabs_mul _ _ _ _ Bk Bh) as BB. assert (E27 : 9 * g * (p * M) * (2 * (p * M)) == 18 * g * (p * M * (p * M))) by ring. rewrite E27 in BB.
    assert (G0 : 0 <= g * (p * M * (p * M))) by (apply Qmult_le_0_compat; lra).
    destruct (mul_ok bits frac Hf kk hp) as (pr & M1 & _ & M2 & M3); [lra|]. rewrite M1. cbn [obind]. apply Qabs_le_iff in BB.
    assert (A0 : o_add NC (n_zero NC) pr = Some pr). { cbn. apply (res_ok bits frac Hf); lra. } rewrite A0.
    pose proof (cell_def c n n _ VP i j Hi Hj) as Dx. pose proof (BP i j Hi Hj) as Bx'. unfold qcell in Bx'. destruct (cell n (kf_P f) i j) as [xx|]; [|congruence]. cbn [b_sub obind].
    apply Qabs_le_iff in Bx'. cbn. rewrite (res_ok bits frac Hf); [discriminate|rewrite (sub_val frac Hf); lra..].
  - intros i Hi. replace i with 0%nat by lia. unfold b_pivot. cbn [obind subdot]. cbn [b_mul obind]. cbn. rewrite Z.mul_0_r, Z.div_0_l by (pose proof (Bpos frac Hf); lia).
    rewrite (res_ok bits frac Hf); [discriminate|rewrite (v_0 frac Hf); lra..].
Qed.

(** the inverse left in the observation *)
Lemma Si_val o' f' : correct c NU n 1 o f = Ok (o', f') -> exists si, cell 1 (ob_Sinv o') 0 0 = Some si /\ 0 <= v si /\ v si <= 4 * g /\ Qabs (v si - 1 / Se) <= 8 * g * g * (N * p) * w.
Proof.
  intros E. destruct (correct_bits' Z c NU n 1 o o' f f' Hn (le_n 1) Ho Hv E) as (_ & S & HSS & HF & HI & _).
  destruct S_ok as (s & _ & Es & Hs & Bs).
  assert (S00 : S 0%nat 0%nat = Some s) by (rewrite (HSS 0%nat 0%nat (le_n 1) (le_n 1)); exact Es).
  destruct (inv_bounds frac Hf s g Hg Hs) as (s0 & l0 & r0 & r1 & i0 & i1 & Bi). cbv zeta in *.
  destruct HF as [(HF & _)|(i & s' & d' & Hi & _ & Ep & Hle & _)].
  2:{ exfalso. replace i with 0%nat in Ep by lia. rewrite S00 in Ep. cbn in Ep. injection Ep as <-. cbn in Hle. apply Z.leb_le in Hle. lia. }
  destruct (HF 0%nat (le_n 1)) as (s' & l & r & Ep & _ & El & Er & EL & _). rewrite S00 in Ep. cbn in Ep. injection Ep as <-.
  cbn in El. destruct (Z.ltb_spec s 0); [lia|]. injection El as El. 
  destruct HI as (Y & HI). destruct (HI 0%nat (le_n 1)) as (r' & Er' & HI'). destruct (HI' 0%nat (le_n 0)) as (EY & EX & _).
  rewrite EL in Er'. cbn [obind] in Er'. rewrite Er in Er'. injection Er' as <-.
  assert (Hr : r = fx_r frac s). { cbn in Er. rewrite <- El in Er. destruct (Z.eqb_spec (Z.sqrt (s * 2 ^ frac)) 0); [discriminate|]. injection Er as <-. reflexivity. }
  change (Y 0%nat 0%nat = b_mul NU (b_add NU (Some (n_one NU)) (Some 0%Z)) (Some r)) in EY. cbn in EY. rewrite Z.add_0_r, Z.mul_comm, Z.div_mul in EY by (pose proof (Bpos frac Hf); lia).
  change (cell 1 (ob_Sinv o') 0 0 = b_mul NU (b_add NU (Y 0%nat 0%nat) (Some 0%Z)) (Some r)) in EX. rewrite EY in EX. cbn in EX. rewrite Z.add_0_r, Hr in EX. change (fx_r frac s * fx_r frac s / 2 ^ frac)%Z with (fx_si frac s) in EX.
  exists (fx_si frac s). split; [exact EX|]. split; [exact i0|]. split; [exact i1|].
  pose proof p1 as pp. pose proof N1 as nn. pose proof (wpos frac Hf) as Hw. pose proof Np as Np'. pose proof (proj1 Nw) as nw0'.
  set (si := v (fx_si frac s)) in *. set (sg := v s) in *. set (q := p) in *. set (e := N * w * (1 + q)) in *.
  assert (e0 : 0 <= e). { unfold e. apply Qmult_le_0_compat; lra. }
  assert (HSe : 1 <= g * Se). { eapply Qle_trans; [|exact HS]. assert (0 <= g * e) by (apply Qmult_le_0_compat; lra). lra. }
  set (T := Se) in *. assert (g0 : 0 < g) by lra. assert (sg0 : 0 < sg) by nra. assert (T0 : 0 < T) by nra.
  set (a := 1 / sg) in *. assert (Ea : a * sg == 1) by (unfold a; field; lra). set (b := 1 / T) in *. assert (Eb : b * T == 1) by (unfold b; field; lra).
  assert (a0 : 0 < a) by (unfold a; apply Qlt_shift_div_l; lra). assert (b0 : 0 < b) by (unfold b; apply Qlt_shift_div_l; lra). assert (ag : a <= g) by nra. assert (bg : b <= g) by nra.
  assert (E1 : a - b == a * b * (T - sg)). { setoid_replace (a * b * (T - sg)) with (a * (b * T) - b * (a * sg)) by ring. rewrite Ea, Eb. ring. }
  assert (AB : Qabs (a - b) <= g * g * e). { rewrite E1, Qabs_Qmult. rewrite (Qabs_pos (a * b)) by (apply Qmult_le_0_compat; lra). apply Qle_trans with (a * b * e).
    - rewrite !(Qmult_comm (a * b)). apply Qmult_le_compat_r; [|apply Qmult_le_0_compat; lra]. rewrite Qabs_Qminus. exact Bs.
    - apply Qmult_le_compat_r; [|exact e0]. nra. }
  apply Qabs_le_iff in Bi. apply Qabs_le_iff in AB. apply Qabs_le_iff.
  assert (G2 : 6 * g * g * w + g * g * e <= 8 * g * g * (N * q) * w).
  { assert (e <= 2 * (N * q) * w) by (unfold e; nra). assert (G : 0 <= g * g) by nra. assert (g * g * e <= g * g * (2 * (N * q) * w)) by (rewrite !(Qmult_comm (g * g)); apply Qmult_le_compat_r; lra).
    assert (w <= (N * q) * w) by nra. assert (g * g * w <= g * g * ((N * q) * w)) by (rewrite !(Qmult_comm (g * g)); apply Qmult_le_compat_r; lra). lra. }
  split; lra.
Qed.

Notation xe := (fst (q_correct1 n H z R x P)). Notation Pe := (snd (q_correct1 n H z R x P)).
Theorem scalar_error : exists o' f', (forall oc da, correct c (fx_num bits frac oc da) n 1 o f = Ok (o', f')) /\
  (forall i, (i < n)%nat -> Qabs (qc 1 (kf_x f') i 0 - xe i) <= 41 * (g * g) * (p * p * p * p) * M * w) /\
  (forall i j, (i < n)%nat -> (j < n)%nat -> Qabs (qc n (kf_P f') i j - Pe i j) <= 23 * (g * g) * (p * p * p * p) * M * w).
Proof.
  destruct (correct_defined c NC n 1 o f Hn (le_n 1) Ho Hv scalar_defined) as (o' & f' & E). exists o', f'.
  destruct (every_build bits frac (fun N => correct c N n 1 o f) (o', f') E) as (EA & EU); [intros N2 HN; apply nsim_correct, HN|].
  split; [exact EA|]. destruct (Si_val o' f' EU) as (si & Esi & i0 & i1 & Bi).
  destruct (fx_correct c bits frac Hf n 1 o o' f f' Hn (le_n 1) Ho Hv E) as (GY & GK & GX & GP). cbv zeta in *.
  pose proof p1 as pp. pose proof N1 as nn. pose proof (wpos frac Hf) as Hw. pose proof Np as Np'. pose proof (proj1 Nw) as nw0'. pose proof (w_le1 frac Hf) as Hw1. pose proof Mp as Mp'. pose proof pM1 as (q1 & q2 & q3 & _). pose proof (proj2 Nw) as nw1.
  assert (EP : N * M == p) by reflexivity.
  assert (HSe : 1 <= g * Se). { eapply Qle_trans; [|exact HS]. assert (0 <= g * (N * w * (1 + p))) by (apply Qmult_le_0_compat; [lra|]; apply Qmult_le_0_compat; lra). lra. }
  assert (g0 : 0 < g) by lra. assert (T0 : 0 < Se) by nra. assert (b0 : 0 < 1 / Se) by (apply Qlt_shift_div_l; lra).
  assert (bg : 1 / Se <= g). { apply Qle_shift_div_r; lra. }
  (* the gain *)
  assert (KE : forall i, (i < n)%nat -> let K := qc 1 (ob_K o') i 0 in let Ke := qsum n (fun l => P i l * H l) / Se in Qabs (K - Ke) <= 13 * (g * g) * (p * p * p) * w /\ Qabs Ke <= g * (p * M) /\ Qabs K <= 9 * g * (p * M)).
  { intros i Hi. cbv zeta. pose proof (GK i 0%nat Hi (le_n 1)) as G. rewrite !qsum1 in G. change (qn 1) with 1 in G. unfold qcell at 4 5 in G. rewrite Esi in G.
    assert (Bph : Qabs (qsum n (fun l => P i l * H l)) <= p * M). { eapply Qle_trans; [apply qsum_abs|]. apply (Ph_abs i Hi). }
    set (ph := qsum n (fun l => P i l * H l)) in *. set (k := qc 1 (ob_K o') i 0) in *. change (qsum n (fun l => qc n (kf_P f) i l * qc n (ob_H o) 0 l)) with ph in G.
    assert (Eke : ph / Se == ph * (1 / Se)) by (unfold Qdiv; ring). rewrite Eke. set (b := 1 / Se) in *.
    split; [|split].
    - setoid_replace (k - ph * b) with ((k - ph * v si) + ph * (v si - b)) by ring. eapply Qle_trans; [apply Qabs_triangle|].
      pose proof (qabs_mul _ _ _ _ Bph Bi) as Q1. rewrite (Qabs_pos (v si) i0) in G.
      assert (E1 : p * M * (8 * g * g * (N * p) * w) == 8 * (g * g) * (p * p * p) * w) by ring.
      assert (G1 : 1 * w + N * w * v si <= 5 * (g * g) * (p * p * p) * w).
      { assert (N * w * v si <= N * w * (4 * g)) by (rewrite !(Qmult_comm (N * w)); apply Qmult_le_compat_r; lra).
        assert (A1 : 1 <= (g * g) * (p * p * p)). { set (q := p) in *. clearbody q. assert (1 <= g * g) by nra. assert (1 <= q * q * q) by (assert (1 <= q * q) by nra; nra). nra. }
        assert (A2 : N * g <= (g * g) * (p * p * p)). { set (q := p) in *. clearbody q. assert (g <= g * g) by nra. assert (q <= q * q * q) by (assert (1 <= q * q) by nra; nra). assert (N <= q * q * q) by lra. nra. }
        assert (A3 : w <= (g * g) * (p * p * p) * w) by nra. assert (A4 : N * g * w <= (g * g) * (p * p * p) * w) by (apply Qmult_le_compat_r; lra). lra. }
      lra.
    - rewrite (Qmult_comm g). apply qabs_mul; [exact Bph|]. rewrite Qabs_pos by lra. exact bg.
    - assert (Bsi : Qabs (v si) <= 4 * g) by (rewrite Qabs_pos by exact i0; exact i1). pose proof (qabs_mul _ _ _ _ Bph Bsi) as Q1. rewrite (Qabs_pos (v si) i0) in G.
      assert (N * w * v si <= p * (4 * g)). { apply Qle_trans with (p * v si); [apply Qmult_le_compat_r; lra|]. rewrite !(Qmult_comm p). apply Qmult_le_compat_r; lra. }
      apply Qabs_le_iff in Q1. apply Qabs_le_iff in G. apply Qabs_le_iff. assert (A1 : 1 <= g * (p * M)) by nra. assert (A2 : p * g <= g * (p * M)) by (rewrite (Qmult_comm p); rewrite !(Qmult_comm g); apply Qmult_le_compat_r; lra). split; lra. }
  (* y *)
  pose proof (GY 0%nat (le_n 1)) as (Y1 & Y2). set (ye := z - qsum n (fun l => H l * x l)). change (qc 1 (ob_z o) 0 0 - qsum n (fun l => qc n (ob_H o) 0 l * qc 1 (kf_x f) l 0)) with ye in Y1, Y2.
  assert (Bye : Qabs ye <= 2 * (p * M)). { unfold ye. assert (Q1 : Qabs (qsum n (fun l => H l * x l)) <= p * M) by (eapply Qle_trans; [apply qsum_abs|apply hx_abs]). pose proof (Bz 0%nat 0%nat (le_n 1) (le_n 1)) as Q2. apply Qabs_le_iff in Q1. apply Qabs_le_iff in Q2. apply Qabs_le_iff. split; lra. }
  set (yy := qc 1 (ob_y o') 0 0) in *. assert (Byy : Qabs yy <= 3 * (p * M)). { apply Qabs_le_iff in Bye. apply Qabs_le_iff. split; lra. }
  assert (Dy : Qabs (yy - ye) <= N * w) by (apply Qabs_le_iff; split; lra).
  assert (P4 : 1 <= (g * g) * (p * p * p * p) * M /\ g * (p * M) * N <= (g * g) * (p * p * p * p) * M).
  { set (q := p) in *. clearbody q. assert (g <= g * g) by nra. assert (q1' : 1 <= q * q) by nra. assert (q2' : q <= q * q * q * q) by (assert (q <= q * q) by nra; nra). assert (q * q <= q * q * q * q) by nra.
    assert (1 <= g * g) by nra. assert (A : 1 <= g * g * (q * q * q * q)) by nra. split; [nra|].
    assert (A2 : g * (q * N) <= g * g * (q * q * q * q)). { assert (q * N <= q * q * q * q) by nra. assert (0 <= q * N) by nra. nra. } nra. }
  destruct P4 as (P4 & P5).
  split.
  - intros i Hi. destruct (GX i Hi) as (X1 & X2). rewrite !qsum1 in X1, X2. change (qn 1) with 1 in X1. destruct (KE i Hi) as (K1 & K2 & _). cbn [q_correct1 fst].
    set (k := qc 1 (ob_K o') i 0) in *. set (ke := qsum n (fun l => P i l * H l) / Se) in *. fold yy in X1, X2. change (z - qsum n (fun l => H l * x l)) with ye.
    pose proof (qabs_mul _ _ _ _ K1 Byy) as Q1. pose proof (qabs_mul _ _ _ _ K2 Dy) as Q2. apply Qabs_le_iff in Q1. apply Qabs_le_iff in Q2.
    assert (E1 : 13 * (g * g) * (p * p * p) * w * (3 * (p * M)) == 39 * ((g * g) * (p * p * p * p) * M * w)) by ring. rewrite E1 in Q1.
    assert (E2 : g * (p * M) * (N * w) == g * (p * M) * N * w) by ring. rewrite E2 in Q2.
    assert (A1 : w <= (g * g) * (p * p * p * p) * M * w) by nra. assert (A2 : g * (p * M) * N * w <= (g * g) * (p * p * p * p) * M * w) by (apply Qmult_le_compat_r; lra).
    apply Qabs_le_iff. set (G := g * g * (p * p * p * p) * M * w) in *.
    assert (EG : 41 * (g * g) * (p * p * p * p) * M * w == 41 * G) by (unfold G; ring). rewrite EG. cbv beta in *. change (qc 1 (ob_z o) 0 0 - qsum n (fun l => qc n (ob_H o) 0 l * qc 1 (kf_x f) l 0)) with ye. clearbody ye G. split; lra.
  - intros i j Hi Hj. pose proof (GP i j Hi Hj) as X1. rewrite !qsum1 in X1. change (qn 1) with 1 in X1. destruct (KE i Hi) as (K1 & K2 & K3). cbn [q_correct1 snd].
    assert (Bhp : Qabs (qsum n (fun l => H l * P l j)) <= p * M) by (eapply Qle_trans; [apply qsum_abs|apply (hP_abs j Hj)]).
    set (k := qc 1 (ob_K o') i 0) in *. set (ke := qsum n (fun l => P i l * H l) / Se) in *. set (hp := qsum n (fun l => H l * P l j)) in *. change (qsum n (fun l => qc n (ob_H o) 0 l * qc n (kf_P f) l j)) with hp in X1.
    pose proof (qabs_mul _ _ _ _ K1 Bhp) as Q1. apply Qabs_le_iff in Q1.
    assert (E1 : 13 * (g * g) * (p * p * p) * w * (p * M) == 13 * ((g * g) * (p * p * p * p) * M * w)) by ring. rewrite E1 in Q1.
    assert (A1 : w <= (g * g) * (p * p * p * p) * M * w) by nra. assert (A2 : g * (p * M) * N * w <= (g * g) * (p * p * p * p) * M * w) by (apply Qmult_le_compat_r; lra).
    assert (A3 : N * w * Qabs k <= 9 * (g * (p * M) * N * w)). { apply Qle_trans with (N * w * (9 * g * (p * M))); [rewrite !(Qmult_comm (N * w)); apply Qmult_le_compat_r; lra|]. apply Qle_lteq. right. ring. }
    apply Qabs_le_iff in X1. apply Qabs_le_iff. set (G := g * g * (p * p * p * p) * M * w) in *.
    assert (EG : 23 * (g * g) * (p * p * p * p) * M * w == 23 * G) by (unfold G; ring). rewrite EG. split; lra.
Qed.
End Scalar.

Theorem fx_scalar_correct : forall (c : cfg) (bits frac : Z), (0 <= frac)%Z -> forall (n : nat) (o : observation Z) (f : kalman Z) (M g : Q), (1 <= n)%nat ->
  fx_scalar_setup c frac n o f M -> 1 <= M -> 1 <= g -> 32 * g * (qn n * qn n) * (M * M * M * M) <= fx_top bits frac ->
  let H := fun l => qcell frac n (ob_H o) 0 l in let z := qcell frac 1 (ob_z o) 0 0 in let R := qcell frac 1 (ob_R o) 0 0 in
  let x := fun l => qcell frac 1 (kf_x f) l 0 in let P := qcell frac n (kf_P f) in
  1 / g + qn n * (1 + qn n * M) * ulp frac <= q_innovation_variance n H P R ->
  exists o' f', (forall oc da, correct c (fx_num bits frac oc da) n 1 o f = Ok (o', f')) /\
  (forall i, (i < n)%nat -> Qabs (qcell frac 1 (kf_x f') i 0 - fst (q_correct1 n H z R x P) i) <= 41 * (g * g) * (qn n * qn n * qn n * qn n) * (M * M * M * M * M) * ulp frac) /\
  (forall i j, (i < n)%nat -> (j < n)%nat -> Qabs (qcell frac n (kf_P f') i j - snd (q_correct1 n H z R x P) i j) <= 23 * (g * g) * (qn n * qn n * qn n * qn n) * (M * M * M * M * M) * ulp frac).
Proof.
  intros c bits frac Hf n o f M g Hn (Hv & Ho & Bx & BP & BH & Bz & BR) HM Hg HR. cbv zeta. intros HS.
  destruct (scalar_error c bits frac Hf n o f M g Hn Hv Ho Bx BP BH Bz BR HM Hg) as (o' & f' & E & EX & EPP).
  - eapply Qle_trans; [|exact HR]. apply Qle_lteq. right. ring.
  - assert (E1 : 1 + g * (qn n * ulp frac * (1 + qn n * M)) == g * (1 / g + qn n * (1 + qn n * M) * ulp frac)) by (field; lra). rewrite E1. rewrite !(Qmult_comm g). apply Qmult_le_compat_r; [exact HS|lra].
  - exists o', f'. split; [exact E|]. split.
    + intros i Hi. eapply Qle_trans; [apply EX, Hi|]. apply Qle_lteq. right. ring.
    + intros i j Hi Hj. eapply Qle_trans; [apply EPP; auto|]. apply Qle_lteq. right. ring.
Qed.

(** ** a prediction and a control step with every number at most M *)
Theorem fx_predict_simple : forall (c : cfg) (bits frac : Z), (0 <= frac)%Z -> forall (n : nat) (f : kalman Z) (M : Q), (1 <= n)%nat -> kf_valid c n f -> 1 <= M ->
  q_at_most frac n n (kf_A f) M -> q_at_most frac n 1 (kf_x f) M -> q_at_most frac n n (kf_P f) M -> q_at_most frac n n (kf_Q f) M ->
  4 * (qn n * qn n) * (M * M * M) <= fx_top bits frac ->
  exists f', (forall oc da, predict c (fx_num bits frac oc da) n f = Ok f') /\ predict c (unlimited frac) n f = Ok f'.
Proof.
  intros c bits frac Hf n f M Hn Hv HM BA Bx BP BQ HT. pose proof (wpos frac Hf) as Hw. pose proof (w_le1 frac Hf) as Hw1. pose proof (qn_ge1 n Hn) as HN. set (N := qn n) in *.
  assert (RA : q_rows_within frac n n (kf_A f) (N * M)) by (intros i Hi; unfold N; rewrite <- (qsum_const n M); apply qsum_le; intros k Hk; apply BA; auto).
  assert (p1 : 1 <= N * M) by nra. assert (Mp : M <= N * M) by nra. assert (Np : N <= N * M) by nra. set (p := N * M) in *.
  assert (E4 : 4 * (N * N) * (M * M * M) == 4 * (p * p * M)) by (unfold p; ring). rewrite E4 in HT.
  assert (pM : p <= p * M) by nra. assert (pp : p * M <= p * p * M) by nra. assert (pp1 : p <= p * p * M) by lra. assert (ppp : p * p <= p * p * M) by nra. assert (Nw : N * ulp frac <= p) by nra.
  destruct (qpredict_lv c bits frac Hf n f p M M M Hn Hv RA BQ Bx BP) as (f' & E & _).
  - fold N. lra.
  - fold N. lra.
  - fold N. assert (N * (1 + p) * ulp frac <= p + p * p) by nra. lra.
  - exists f'. split; [exact E|]. pose proof (every_build bits frac (fun N => predict c N n f) f' (E true true)) as [_ EU]; [|exact EU]. intros N2 HN2. apply nsim_predict, HN2.
Qed.

Theorem fx_control_simple : forall (c : cfg) (bits frac : Z), (0 <= frac)%Z -> forall (n m : nat) (k : control Z) (f : kalman Z) (M : Q), (1 <= n)%nat -> (1 <= m)%nat -> kf_valid c n f -> ct_valid c n m k -> 1 <= M ->
  q_at_most frac n 1 (kf_x f) M -> q_at_most frac n n (kf_P f) M -> q_at_most frac n m (ct_B k) M -> q_at_most frac m 1 (ct_u k) M -> q_at_most frac m m (ct_Q k) M ->
  4 * (qn m * qn m) * (M * M * M) <= fx_top bits frac ->
  exists k' f', (forall oc da, control_ c (fx_num bits frac oc da) n m k f = Ok (k', f')) /\ control_ c (unlimited frac) n m k f = Ok (k', f').
Proof.
  intros c bits frac Hf n m k f M Hn Hm Hv Hk HM Bx BP BB Bu BQ HT. pose proof (wpos frac Hf) as Hw. pose proof (w_le1 frac Hf) as Hw1. pose proof (qn_ge1 m Hm) as HN. set (N := qn m) in *.
  assert (RB : q_rows_within frac n m (ct_B k) (N * M)) by (intros i Hi; unfold N; rewrite <- (qsum_const m M); apply qsum_le; intros l Hl; apply BB; auto).
  assert (p1 : 1 <= N * M) by nra. assert (Mp : M <= N * M) by nra. assert (Np : N <= N * M) by nra. set (p := N * M) in *.
  assert (E4 : 4 * (N * N) * (M * M * M) == 4 * (p * p * M)) by (unfold p; ring). rewrite E4 in HT.
  assert (pM : p <= p * M) by nra. assert (pp : p * M <= p * p * M) by nra. assert (pp1 : p <= p * p * M) by lra. assert (ppp : p * p <= p * p * M) by nra. assert (Nw : N * ulp frac <= p) by nra.
  destruct (qcontrol_lv c bits frac Hf n m k f p M M M M Hn Hm Hv Hk RB Bu BQ Bx BP) as (k' & f' & E & _).
  - fold N. lra.
  - fold N. lra.
  - fold N. assert (N * (1 + p) * ulp frac <= p + p * p) by nra. lra.
  - exists k', f'. split; [exact E|]. pose proof (every_build bits frac (fun N => control_ c N n m k f) (k', f') (E true true)) as [_ EU]; [|exact EU]. intros N2 HN2. apply nsim_control, HN2.
Qed.
