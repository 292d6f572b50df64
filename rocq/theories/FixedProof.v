(** * Fixed-point element types: overflow is never silent in checked builds; rounding of products and predictions *)
From Coq Require Import ZArith QArith Qabs Lia Lqa Psatz.
From Verif Require Import Spec SpecBits Matrix Filter Extended SpecFilter History SpecGen Kernels FixedNum SpecFixed NumSim BitsProof.
Open Scope Z_scope.

Lemma fx_refines bits frac oc da : refines (fx_num bits frac true true) (fx_num bits frac oc da).
Proof.
  repeat split; cbn; unfold fx_res; intros.
  - destruct (fx_fits bits (a + b)); [assumption|discriminate].
  - destruct (fx_fits bits (a - b)); [assumption|discriminate].
  - destruct (fx_fits bits (a * b / 2 ^ frac)); [assumption|discriminate].
  - destruct (fx_fits bits (- a)); [assumption|discriminate].
  - destruct (a =? 0); [discriminate|]. destruct (fx_fits bits _); [assumption|discriminate].
  - assumption.
Qed.
Lemma fx_unlimited bits frac : refines (fx_num bits frac true true) (unlimited frac).
Proof.
  repeat split; cbn; unfold fx_res; intros.
  - destruct (fx_fits bits (a + b)); [assumption|discriminate].
  - destruct (fx_fits bits (a - b)); [assumption|discriminate].
  - destruct (fx_fits bits (a * b / 2 ^ frac)); [assumption|discriminate].
  - destruct (fx_fits bits (- a)); [assumption|discriminate].
  - destruct (a =? 0); [discriminate|]. destruct (fx_fits bits _); [assumption|discriminate].
  - assumption.
Qed.

Theorem fx_run (c : cfg) bits frac n (w : world Z) os :
  run c (fx_num bits frac true true) n w os = run c (unlimited frac) n w os \/ run c (fx_num bits frac true true) n w os = Panic NumPanic.
Proof. apply nsim_run. apply fx_unlimited. Qed.
Theorem fx_run_builds (c : cfg) bits frac oc da n (w w' : world Z) os :
  run c (fx_num bits frac true true) n w os = Ok w' -> run c (fx_num bits frac oc da) n w os = Ok w'.
Proof. intros E. eapply nsim_ok; [apply nsim_run, fx_refines|exact E]. Qed.

(** ** rounding of one product *)
Section Frac.
Variable frac : Z.
Hypothesis Hf : 0 <= frac.
Notation B := (2 ^ frac).
Lemma Bpos : 0 < B. Proof. apply Z.pow_pos_nonneg; lia. Qed.
Lemma QBpos : (0 < inject_Z B)%Q. Proof. change 0%Q with (inject_Z 0). rewrite <- Zlt_Qlt. apply Bpos. Qed.
Lemma QB0 : ~ (inject_Z B == 0)%Q. Proof. pose proof QBpos. lra. Qed.
Lemma ulp_pos : (0 < ulp frac)%Q.
Proof. unfold ulp. apply Qlt_shift_div_l; [apply QBpos|]. lra. Qed.

Lemma fval_le a b : (fval frac a <= fval frac b)%Q <-> a <= b.
Proof.
  unfold fval. split; intros H.
  - apply (Qmult_le_compat_r _ _ (inject_Z B)) in H; [|apply Qlt_le_weak, QBpos].
    rewrite !(Qmult_comm (_ / _) (inject_Z B)), !Qmult_div_r in H by apply QB0. now rewrite <- Zle_Qle in H.
  - apply Qle_shift_div_l; [apply QBpos|]. rewrite Qmult_comm, Qmult_div_r by apply QB0. now rewrite <- Zle_Qle.
Qed.
Lemma fval_add a b : (fval frac (a + b) == fval frac a + fval frac b)%Q.
Proof. unfold fval. rewrite inject_Z_plus. field. apply QB0. Qed.
Lemma fval_sub a b : (fval frac (a - b) == fval frac a - fval frac b)%Q.
Proof. unfold fval. unfold Z.sub. rewrite inject_Z_plus, inject_Z_opp. field. apply QB0. Qed.
Lemma fval_mul_B a b : (fval frac a * fval frac b == inject_Z (a * b) / inject_Z B / inject_Z B)%Q.
Proof. unfold fval. rewrite inject_Z_mult. field. apply QB0. Qed.

Lemma mul_down a b : (fval frac (a * b / B) <= fval frac a * fval frac b)%Q.
Proof.
  rewrite fval_mul_B. unfold fval. apply Qle_shift_div_l; [apply QBpos|].
  rewrite Qmult_comm, Qmult_div_r by apply QB0. apply Qle_shift_div_l; [apply QBpos|]. rewrite <- inject_Z_mult, <- Zle_Qle.
  rewrite Z.mul_comm. apply Z.mul_div_le, Bpos.
Qed.
Lemma mul_up a b : (fval frac a * fval frac b <= fval frac (a * b / B) + ulp frac)%Q.
Proof.
  assert (E : (fval frac (a * b / B) + ulp frac == inject_Z (a * b / B + 1) / inject_Z B)%Q).
  { unfold fval, ulp. rewrite inject_Z_plus. change (inject_Z 1) with 1%Q. field. apply QB0. }
  rewrite E, fval_mul_B. apply Qle_shift_div_l; [apply QBpos|].
  rewrite Qmult_comm, Qmult_div_r by apply QB0. apply Qle_shift_div_r; [apply QBpos|]. rewrite <- inject_Z_mult, <- Zle_Qle.
  pose proof (Z.mod_pos_bound (a * b) B Bpos). pose proof (Z.div_mod (a * b) B). pose proof Bpos. nia.
Qed.
Lemma mul_int a b : (exists w, a = w * B) \/ (exists w, b = w * B) -> (fval frac (a * b / B) == fval frac a * fval frac b)%Q.
Proof.
  intros H. rewrite fval_mul_B. unfold fval. pose proof Bpos.
  assert (E : a * b = a * b / B * B).
  { destruct H as [(w & ->)|(w & ->)].
    - replace (w * B * b) with (w * b * B) by ring. rewrite Z.div_mul by lia. reflexivity.
    - replace (a * (w * B)) with (a * w * B) by ring. rewrite Z.div_mul by lia. reflexivity. }
  rewrite E at 2. rewrite inject_Z_mult. field. apply QB0.
Qed.

(** ** sums of products *)
Definition oq (o : option Z) : Q := match o with Some z => fval frac z | None => 0%Q end.

Lemma qsum_ext K f g : (forall k, (k < K)%nat -> f k == g k)%Q -> (qsum K f == qsum K g)%Q.
Proof. induction K as [|K IH]; intros H; cbn; [reflexivity|]. rewrite IH by (intros; apply H; lia). rewrite H by lia. reflexivity. Qed.

Lemma qn_S K : (qn (S K) == qn K + 1)%Q.
Proof. unfold qn. rewrite Nat2Z.inj_succ, <- Z.add_1_r, inject_Z_plus. reflexivity. Qed.

Lemma dot_bound K f g r : dot (unlimited frac) K f g = Some r -> fx_dot_bound frac K (fun k => oq (f k)) (fun k => oq (g k)) r.
Proof.
  unfold fx_dot_bound. revert r. induction K as [|K IH]; intros r E.
  - cbn in E. injection E as <-. cbn [qsum]. change (qn 0) with 0%Q. unfold fval. split.
    + setoid_replace (inject_Z 0 / inject_Z B)%Q with 0%Q; [lra|]. change (inject_Z 0) with 0%Q. field. apply QB0.
    + setoid_replace (inject_Z 0 / inject_Z B)%Q with 0%Q; [lra|]. change (inject_Z 0) with 0%Q. field. apply QB0.
  - cbn [dot] in E. destruct (dot (unlimited frac) K f g) as [s|] eqn:Es; [|discriminate]. cbn [obind] in E.
    destruct (f K) as [a|] eqn:Ea; [|discriminate]. destruct (g K) as [b|] eqn:Eb; [|discriminate]. cbn in E. injection E as <-.
    destruct (IH s eq_refl) as [I1 I2]. cbn [qsum]. rewrite Ea, Eb. cbn [oq]. rewrite fval_add, qn_S.
    pose proof (mul_down a b). pose proof (mul_up a b). lra.
Qed.
Lemma dot1_bound K f g r : (1 <= K)%nat -> dot1 (unlimited frac) K f g = Some r -> fx_dot_bound frac K (fun k => oq (f k)) (fun k => oq (g k)) r.
Proof.
  unfold fx_dot_bound. revert r. induction K as [|[|K] IH]; intros r HK E; [lia| |].
  - cbn in E. destruct (f 0%nat) as [a|] eqn:Ea; [|discriminate]. destruct (g 0%nat) as [b|] eqn:Eb; [|discriminate]. cbn in E. injection E as <-.
    cbn [qsum]. rewrite Ea, Eb. cbn [oq]. change (qn 1) with 1%Q. pose proof (mul_down a b). pose proof (mul_up a b). lra.
  - change (obind (dot1 (unlimited frac) (S K) f g) (fun acc => obind (f (S K)) (fun u => obind (g (S K)) (fun v =>
       obind (o_mul (unlimited frac) u v) (fun p => o_add (unlimited frac) acc p)))) = Some r) in E.
    destruct (dot1 (unlimited frac) (S K) f g) as [s|] eqn:Es; [|discriminate]. cbn [obind] in E.
    destruct (f (S K)) as [a|] eqn:Ea; [|discriminate]. destruct (g (S K)) as [b|] eqn:Eb; [|discriminate]. cbn in E. injection E as <-.
    destruct (IH s ltac:(lia) eq_refl) as [I1 I2]. change (qsum (S (S K)) ?q) with (qsum (S K) q + q (S K))%Q. cbv beta. rewrite Ea, Eb. cbn [oq].
    rewrite fval_add, (qn_S (S K)). pose proof (mul_down a b). pose proof (mul_up a b). lra.
Qed.

Definition ofint (o : option Z) : Prop := forall z, o = Some z -> exists w, z = w * B.
Lemma dot_exact K f g r : (forall k, (k < K)%nat -> ofint (f k) \/ ofint (g k)) -> dot (unlimited frac) K f g = Some r ->
  (fval frac r == qsum K (fun k => oq (f k) * oq (g k)))%Q.
Proof.
  revert r. induction K as [|K IH]; intros r HI E.
  - cbn in E. injection E as <-. cbn [qsum]. unfold fval. change (inject_Z 0) with 0%Q. field. apply QB0.
  - cbn [dot] in E. destruct (dot (unlimited frac) K f g) as [s|] eqn:Es; [|discriminate]. cbn [obind] in E.
    destruct (f K) as [a|] eqn:Ea; [|discriminate]. destruct (g K) as [b|] eqn:Eb; [|discriminate]. cbn in E. injection E as <-.
    cbn [qsum]. rewrite Ea, Eb. cbn [oq]. rewrite fval_add, <- (IH s); [|intros; apply HI; lia|reflexivity]. rewrite mul_int; [reflexivity|].
    destruct (HI K ltac:(lia)) as [H|H]; [left; apply H, Ea|right; apply H, Eb].
Qed.
Lemma dot1_exact K f g r : (1 <= K)%nat -> (forall k, (k < K)%nat -> ofint (f k) \/ ofint (g k)) -> dot1 (unlimited frac) K f g = Some r ->
  (fval frac r == qsum K (fun k => oq (f k) * oq (g k)))%Q.
Proof.
  revert r. induction K as [|[|K] IH]; intros r HK HI E; [lia| |].
  - cbn in E. destruct (f 0%nat) as [a|] eqn:Ea; [|discriminate]. destruct (g 0%nat) as [b|] eqn:Eb; [|discriminate]. cbn in E. injection E as <-.
    cbn [qsum]. rewrite Ea, Eb. cbn [oq]. rewrite mul_int; [ring|]. destruct (HI 0%nat ltac:(lia)) as [H|H]; [left; apply H, Ea|right; apply H, Eb].
  - change (obind (dot1 (unlimited frac) (S K) f g) (fun acc => obind (f (S K)) (fun u => obind (g (S K)) (fun v =>
       obind (o_mul (unlimited frac) u v) (fun p => o_add (unlimited frac) acc p)))) = Some r) in E.
    destruct (dot1 (unlimited frac) (S K) f g) as [s|] eqn:Es; [|discriminate]. cbn [obind] in E.
    destruct (f (S K)) as [a|] eqn:Ea; [|discriminate]. destruct (g (S K)) as [b|] eqn:Eb; [|discriminate]. cbn in E. injection E as <-.
    change (qsum (S (S K)) ?q) with (qsum (S K) q + q (S K))%Q. cbv beta. rewrite Ea, Eb. cbn [oq].
    rewrite fval_add, <- (IH s); [|lia|intros; apply HI; lia|reflexivity]. rewrite mul_int; [reflexivity|].
    destruct (HI (S K) ltac:(lia)) as [H|H]; [left; apply H, Ea|right; apply H, Eb].
Qed.
End Frac.

(** ** the kernels *)
Section Kern.
Variables (c : cfg) (bits frac : Z).
Hypothesis Hf : 0 <= frac.
Notation NC := (fx_num bits frac true true).
Notation NU := (unlimited frac).

Lemma cell_bd R C (l : list Z) i j : (R * C <= length l)%nat -> (i < R)%nat -> (j < C)%nat -> exists v, cell C l i j = Some v.
Proof.
  intros H Hi Hj. destruct (cell C l i j) as [v|] eqn:E; [eauto|]. unfold cell in E. apply nth_error_None in E. nia.
Qed.
Lemma cellwise_ok R C (old new : list Z) f : cellwise R C old f (Ok new) -> (R * C <= length old)%nat ->
  forall i j, (i < R)%nat -> (j < C)%nat -> exists v r, cell C new i j = Some r /\ f i j v = Some r.
Proof.
  intros (HL & H & _) Hl i j Hi Hj. destruct (cell_bd R C old i j Hl Hi Hj) as (v & Ev).
  destruct (cell_bd R C new i j ltac:(lia) Hi Hj) as (r & Er). exists v, r. split; [exact Er|]. rewrite <- (H i j v Hi Hj Ev). exact Er.
Qed.

Theorem fx_mult M K U a b out out' : valid c M K a -> valid c K U b -> valid c M U out -> mult c NC M K U a b out = Ok out' ->
  forall i j, (i < M)%nat -> (j < U)%nat -> exists r, cell U out' i j = Some r /\
    fx_dot_bound frac K (fun k => qcell frac K a i k) (fun k => qcell frac U b k j) r /\
    (integral frac M K a \/ integral frac K U b -> (fval frac r == qsum K (fun k => qcell frac K a i k * qcell frac U b k j))%Q).
Proof.
  intros Va Vb Vo E i j Hi Hj. apply (nsim_ok _ _ _ (nsim_mult c NC NU (fx_unlimited bits frac) M K U a b out)) in E.
  pose proof (mult_cellwise c NU M K U a b out Va Vb Vo) as HC. rewrite E in HC.
  destruct (cellwise_ok _ _ _ _ _ HC (proj1 Vo) i j Hi Hj) as (v & r & Er & Ed). exists r. split; [exact Er|].
  split; [apply (dot_bound frac Hf _ _ _ _ Ed)|]. intros HI. apply (dot_exact frac Hf) in Ed; [exact Ed|].
  intros k Hk. destruct HI as [HI|HI]; [left|right]; intros z Ez; eapply HI; eauto.
Qed.
Theorem fx_mult_transb M K U a b out out' : valid c M K a -> valid c U K b -> valid c M U out -> mult_transb c NC M K U a b out = Ok out' ->
  forall i j, (i < M)%nat -> (j < U)%nat -> exists r, cell U out' i j = Some r /\
    fx_dot_bound frac K (fun k => qcell frac K a i k) (fun k => qcell frac K b j k) r /\
    (integral frac M K a \/ integral frac U K b -> (fval frac r == qsum K (fun k => qcell frac K a i k * qcell frac K b j k))%Q).
Proof.
  intros Va Vb Vo E i j Hi Hj. apply (nsim_ok _ _ _ (nsim_mult_transb c NC NU (fx_unlimited bits frac) M K U a b out)) in E.
  pose proof (mult_transb_cellwise c NU M K U a b out Va Vb Vo) as HC. rewrite E in HC.
  destruct (cellwise_ok _ _ _ _ _ HC (proj1 Vo) i j Hi Hj) as (v & r & Er & Ed). exists r. split; [exact Er|].
  split; [apply (dot_bound frac Hf _ _ _ _ Ed)|]. intros HI. apply (dot_exact frac Hf) in Ed; [exact Ed|].
  intros k Hk. destruct HI as [HI|HI]; [left|right]; intros z Ez; eapply HI; eauto.
Qed.
Theorem fx_mult_rowvector M K a x out out' : (1 <= K)%nat -> valid c M K a -> valid c K 1 x -> valid c M 1 out -> mult_rowvector c NC M K a x out = Ok out' ->
  forall i, (i < M)%nat -> exists r, cell 1 out' i 0 = Some r /\
    fx_dot_bound frac K (fun k => qcell frac K a i k) (fun k => qcell frac 1 x k 0) r /\
    (integral frac M K a \/ integral frac K 1 x -> (fval frac r == qsum K (fun k => qcell frac K a i k * qcell frac 1 x k 0))%Q).
Proof.
  intros HK Va Vb Vo E i Hi. apply (nsim_ok _ _ _ (nsim_mult_rowvector c NC NU (fx_unlimited bits frac) M K a x out)) in E.
  pose proof (mult_rowvector_cellwise c NU M K a x out HK Va Vb Vo) as HC. rewrite E in HC.
  destruct (cellwise_ok _ _ _ _ _ HC (proj1 Vo) i 0%nat Hi ltac:(lia)) as (v & r & Er & Ed). exists r. split; [exact Er|].
  split; [apply (dot1_bound frac Hf _ _ _ _ HK Ed)|]. intros HI. apply (dot1_exact frac Hf _ _ _ _ HK) in Ed; [exact Ed|].
  intros k Hk. destruct HI as [HI|HI]; [left|right]; intros z Ez; eapply HI; eauto.
Qed.

(** ** prediction *)
Lemma qsum_diff K s t a (e : Q) : (0 <= e)%Q -> (forall k, (k < K)%nat -> s k <= t k /\ t k <= s k + e)%Q ->
  (Qabs (qsum K (fun k => s k * a k) - qsum K (fun k => t k * a k)) <= e * qsum K (fun k => Qabs (a k)))%Q.
Proof.
  intros He. induction K as [|K IH]; intros H; cbn [qsum].
  - setoid_replace (0 - 0)%Q with 0%Q by ring. change (Qabs 0) with 0%Q. lra.
  - specialize (IH ltac:(intros; apply H; lia)). destruct (H K ltac:(lia)) as [H1 H2].
    setoid_replace (qsum K (fun k => s k * a k) + s K * a K - (qsum K (fun k => t k * a k) + t K * a K))%Q
      with ((qsum K (fun k => s k * a k) - qsum K (fun k => t k * a k)) + (s K - t K) * a K)%Q by ring.
    eapply Qle_trans; [apply Qabs_triangle|].
    assert (Q1 : (Qabs ((s K - t K) * a K) <= e * Qabs (a K))%Q).
    { rewrite Qabs_Qmult. apply Qmult_le_compat_r; [|apply Qabs_nonneg]. apply Qabs_Qle_condition. split; lra. }
    lra.
Qed.

Theorem fx_predict n (f f' : kalman Z) : (1 <= n)%nat -> kf_valid c n f -> predict c NC n f = Ok f' ->
  (forall i, (i < n)%nat -> exists r, cell 1 (kf_x f') i 0 = Some r /\
     fx_dot_bound frac n (fun k => qcell frac n (kf_A f) i k) (fun k => qcell frac 1 (kf_x f) k 0) r) /\
  (forall i j, (i < n)%nat -> (j < n)%nat -> exists r, cell n (kf_P f') i j = Some r /\
     let A := qcell frac n (kf_A f) in let P := qcell frac n (kf_P f) in let Q := qcell frac n (kf_Q f) in
     (Qabs (fval frac r - (qsum n (fun k => qsum n (fun l => A i l * P l k) * A j k) + Q i j))
        <= qn n * ulp frac * (1 + qsum n (fun k => Qabs (A j k))))%Q).
Proof.
  intros Hn Hv E. apply (nsim_ok _ _ _ (nsim_predict c NC NU (fx_unlimited bits frac) n f)) in E.
  destruct (predict_bits c NU n f f' Hn Hv E) as (HX & HP).
  pose proof Hv as (VA & Vx & VP & VQ & _ & _).
  split.
  - intros i Hi. rewrite (HX i Hi). unfold b_prodv. destruct (dot1 NU n _ _) as [r|] eqn:Ed.
    + exists r. split; [reflexivity|]. apply (dot1_bound frac Hf _ _ _ _ Hn Ed).
    + exfalso. revert Ed. clear -VA Vx Hi Hn. destruct VA as [VA _]. destruct Vx as [Vx _].
      assert (G : forall K, (1 <= K <= n)%nat -> dot1 NU K (fun k => cell n (kf_A f) i k) (fun k => cell 1 (kf_x f) k 0) <> None).
      { induction K as [|[|K] IH]; intros HK; [lia| |].
        - cbn [dot1]. destruct (cell_bd n n (kf_A f) i 0 VA Hi ltac:(lia)) as (u & ->). destruct (cell_bd n 1 (kf_x f) 0 0 Vx ltac:(lia) ltac:(lia)) as (v & ->). discriminate.
        - change (obind (dot1 NU (S K) (fun k => cell n (kf_A f) i k) (fun k => cell 1 (kf_x f) k 0)) (fun acc => obind (cell n (kf_A f) i (S K)) (fun u => obind (cell 1 (kf_x f) (S K) 0) (fun v =>
             obind (o_mul NU u v) (fun p => o_add NU acc p)))) <> None).
          destruct (dot1 NU (S K) _ _); [|exfalso; apply IH; [lia|reflexivity]]. cbn [obind].
          destruct (cell_bd n n (kf_A f) i (S K) VA Hi ltac:(lia)) as (u & ->). destruct (cell_bd n 1 (kf_x f) (S K) 0 Vx ltac:(lia) ltac:(lia)) as (v & ->). discriminate. }
      intros Ed. apply (G n); [lia|exact Ed].
  - intros i j Hi Hj. rewrite (HP i j Hi Hj). unfold b_prodt, b_prod.
    destruct VA as [VA _]. destruct VP as [VP _]. destruct VQ as [VQ _].
    assert (D : forall K f g, (forall k, (k < K)%nat -> f k <> None /\ g k <> None) -> exists r, dot NU K f g = Some r).
    { clear. induction K as [|K IH]; intros f g H; [eexists; reflexivity|]. destruct (IH f g) as (r & Er); [intros; apply H; lia|]. cbn [dot]. rewrite Er.
      destruct (H K ltac:(lia)) as [H1 H2]. destruct (f K); [|contradiction]. destruct (g K); [|contradiction]. cbn. eauto. }
    assert (Dt : forall k, (k < n)%nat -> exists t, dot NU n (fun l => cell n (kf_A f) i l) (fun l => cell n (kf_P f) l k) = Some t /\
       fx_dot_bound frac n (fun l => qcell frac n (kf_A f) i l) (fun l => qcell frac n (kf_P f) l k) t).
    { intros k Hk. destruct (D n (fun l => cell n (kf_A f) i l) (fun l => cell n (kf_P f) l k)) as (t & Et).
      - intros l Hl. destruct (cell_bd n n (kf_A f) i l VA Hi Hl) as (u & ->). destruct (cell_bd n n (kf_P f) l k VP Hl Hk) as (v & ->). split; discriminate.
      - exists t. split; [exact Et|]. apply (dot_bound frac Hf _ _ _ _ Et). }
    destruct (D n (fun k => dot NU n (fun l => cell n (kf_A f) i l) (fun l => cell n (kf_P f) l k)) (fun k => cell n (kf_A f) j k)) as (s & Es).
    { intros k Hk. destruct (Dt k Hk) as (t & -> & _). destruct (cell_bd n n (kf_A f) j k VA Hj Hk) as (v & ->). split; discriminate. }
    rewrite Es. destruct (cell_bd n n (kf_Q f) i j VQ Hi Hj) as (q & Eq). rewrite Eq. cbn [b_add obind unlimited o_add].
    eexists. split; [reflexivity|]. cbv zeta. rewrite (fval_add frac Hf). unfold qcell at 4. rewrite Eq.
    pose proof (dot_bound frac Hf _ _ _ _ Es) as [B1 B2].
    pose proof (qsum_diff n (fun k => oq frac (dot NU n (fun l => cell n (kf_A f) i l) (fun l => cell n (kf_P f) l k)))
      (fun k => qsum n (fun l => qcell frac n (kf_A f) i l * qcell frac n (kf_P f) l k)%Q) (fun k => qcell frac n (kf_A f) j k) (qn n * ulp frac)%Q) as HD.
    assert (Hp : (0 <= qn n * ulp frac)%Q).
    { apply Qmult_le_0_compat; [|apply Qlt_le_weak, ulp_pos, Hf]. unfold qn. change 0%Q with (inject_Z 0). rewrite <- Zle_Qle. lia. }
    specialize (HD Hp). assert (HD' : forall k : nat, (k < n)%nat -> (oq frac (dot NU n (fun l => cell n (kf_A f) i l) (fun l => cell n (kf_P f) l k)) <=
       qsum n (fun l => qcell frac n (kf_A f) i l * qcell frac n (kf_P f) l k))%Q /\ (qsum n (fun l => qcell frac n (kf_A f) i l * qcell frac n (kf_P f) l k) <=
       oq frac (dot NU n (fun l => cell n (kf_A f) i l) (fun l => cell n (kf_P f) l k)) + qn n * ulp frac)%Q).
    { intros k Hk. destruct (Dt k Hk) as (t & -> & Bt). exact Bt. }
    specialize (HD HD').
    fold (qcell frac n (kf_A f)) in *.
    apply Qabs_Qle_condition in HD. apply Qabs_Qle_condition.
    match type of B1 with (_ <= ?X)%Q => set (S1 := X) in * end.
    match type of HD with (_ <= ?X - ?Y /\ _)%Q => change X with S1 in HD; set (S2 := Y) in * end.
    set (W := qsum n (fun k => Qabs (qcell frac n (kf_A f) j k))) in *.
    set (e := (qn n * ulp frac)%Q) in *. clearbody S1 S2 W e. split; lra.
Qed.

(** with an integer transition matrix nothing is rounded *)
Theorem fx_predict_exact n (f f' : kalman Z) : (1 <= n)%nat -> kf_valid c n f -> integral frac n n (kf_A f) -> predict c NC n f = Ok f' ->
  let A := qcell frac n (kf_A f) in let x := qcell frac 1 (kf_x f) in let P := qcell frac n (kf_P f) in let Q := qcell frac n (kf_Q f) in
  (forall i, (i < n)%nat -> qcell frac 1 (kf_x f') i 0 == qsum n (fun k => A i k * x k 0%nat))%Q /\
  (forall i j, (i < n)%nat -> (j < n)%nat -> qcell frac n (kf_P f') i j == qsum n (fun k => qsum n (fun l => A i l * P l k) * A j k) + Q i j)%Q.
Proof.
  intros Hn Hv HI E. cbv zeta. destruct (fx_predict n f f' Hn Hv E) as (GX & GP).
  apply (nsim_ok _ _ _ (nsim_predict c NC NU (fx_unlimited bits frac) n f)) in E.
  destruct (predict_bits c NU n f f' Hn Hv E) as (HX & HP). split.
  - intros i Hi. destruct (GX i Hi) as (r & Er & _). unfold qcell at 1. rewrite Er. rewrite (HX i Hi) in Er. unfold b_prodv in Er.
    apply (dot1_exact frac Hf _ _ _ _ Hn) in Er; [exact Er|]. intros k Hk. left. intros z Ez. eapply HI; [| |exact Ez]; auto.
  - intros i j Hi Hj. destruct (GP i j Hi Hj) as (r & Er & _). unfold qcell at 1. rewrite Er. rewrite (HP i j Hi Hj) in Er. unfold b_prodt, b_prod in Er.
    destruct (dot NU n _ _) as [s|] eqn:Es; [|discriminate]. unfold qcell at 4. destruct (cell n (kf_Q f) i j) as [q|]; [|discriminate].
    cbn in Er. injection Er as <-. rewrite (fval_add frac Hf).
    assert (G : forall K, (K <= n)%nat -> forall s, dot NU K (fun k => dot NU n (fun l => cell n (kf_A f) i l) (fun l => cell n (kf_P f) l k)) (fun k => cell n (kf_A f) j k) = Some s ->
       forall k, (k < K)%nat -> (oq frac (dot NU n (fun l => cell n (kf_A f) i l) (fun l => cell n (kf_P f) l k)) ==
         qsum n (fun l => qcell frac n (kf_A f) i l * qcell frac n (kf_P f) l k))%Q).
    { clear -HI Hf Hi Hj. induction K as [|K IH]; intros HK s E k Hk; [lia|]. cbn [dot] in E.
      destruct (dot NU K _ _) as [s'|] eqn:Es; [|discriminate]. cbn [obind] in E.
      destruct (dot NU n (fun l => cell n (kf_A f) i l) (fun l => cell n (kf_P f) l K)) as [t|] eqn:Et; [|discriminate].
      destruct (Nat.eq_dec k K) as [->|Hne]; [|eapply IH; eauto; lia]. rewrite Et. cbn [oq].
      apply (dot_exact frac Hf) in Et; [exact Et|]. intros l Hl. left. intros z Ez. eapply HI; [| |exact Ez]; auto. }
    specialize (G n (Nat.le_refl _) s Es). apply (dot_exact frac Hf) in Es.
    + rewrite Es. apply Qplus_comp; [|reflexivity]. apply qsum_ext. intros k Hk. rewrite (G k Hk). reflexivity.
    + intros k Hk. right. intros z Ez. eapply HI; [| |exact Ez]; auto.
Qed.
End Kern.

(** ** the diagonal of a fixed-point Cholesky factor, in every build *)
Theorem fx_chol_diag (c : cfg) bits frac oc da n (A L : list Z) : 0 <= frac -> (1 <= n)%nat -> valid c n n A ->
  cholesky_decompose_lower c (fx_num bits frac oc da) n n A = Ok (true, L) ->
  forall i, (i < n)%nat -> exists d, cell n L i i = Some d /\ 0 < d.
Proof.
  intros Hf Hn V E i Hi. destruct (cholesky_bits c _ n A true L Hn V E) as (_ & HF & _).
  destruct (HF i Hi) as (s & l & d & _ & Hle & Hs & _ & HL & _). exists l. split; [exact HL|].
  cbn in Hle, Hs. apply Z.leb_gt in Hle. destruct (Z.ltb_spec s 0); [discriminate|]. injection Hs as <-.
  apply Z.sqrt_pos. pose proof (Bpos frac Hf). nia.
Qed.
