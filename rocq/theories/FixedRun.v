(** * Any number of turns of a fixed-point filter with corrections *)
From Coq Require Import ZArith QArith Qabs Lia Lqa Psatz.
From Verif Require Import Prelude Spec SpecBits Matrix Filter SpecFilter Wp Kernels FilterTwo HistGen HistTwo NumSim FixedNum SpecFixed SpecFixedRange SpecFixedGain BitsProof Defined FixedProof FixedRange FixedSteps FixedStable FixedGain LinPath.
Open Scope Q_scope.

Section Run.
Variables (c : cfg) (bits frac : Z).
Hypothesis Hf : (0 <= frac)%Z.
Notation NC := (fx_num bits frac true true).
Notation qc := (qcell frac).
Variables (n m : nat) (f : kalman Z) (o : observation Z) (K : nat -> list Z) (X Zb : nat -> Q).
Hypotheses (Hn : (1 <= n)%nat) (Hm : (1 <= m)%nat) (Vf : kf_valid c n f) (Vo : ob_valid c n m o) (HG : fx_gains c bits frac n m f o K).
Notation A := (qc n (kf_A f)). Notation H := (qc n (ob_H o)). Notation Kq := (fun t => qc m (K t)).
Hypothesis HR : forall t, q_turn_room bits frac n m A H (Kq t) X Zb.
Hypothesis HS : q_stays frac n m A H Kq (fun i => qc 1 (kf_x f) i 0) Zb X.

Lemma run_app_ok (N : num Z) w os1 os2 w1 w2 : run c N n w os1 = Ok w1 -> run c N n w1 os2 = Ok w2 -> run c N n w (os1 ++ os2) = Ok w2.
Proof.
  revert w. induction os1 as [|a os1 IH]; cbn; intros w E1 E2; [injection E1 as <-; exact E2|]. destruct (step c N n w a) as [w'|]; cbn in *; [apply IH; auto|discriminate].
Qed.
Lemma valid_put (z : list Z) : forall l, valid c m 1 l -> valid c m 1 (put l z).
Proof. intros l V. apply (put_valid c m 1 l z V). Qed.

Theorem fx_readings cs rest zs : Forall (reading_ok frac m Zb) zs ->
  exists w' x, (forall oc da, run c (fx_num bits frac oc da) n (mk_world f cs ((m, o) :: rest)) (readings_ops zs) = Ok w') /\
    (forall i, (i < n)%nat -> x 0%nat i == qc 1 (kf_x f) i 0) /\ q_follows frac n m A H Kq (length zs) x (fun t j => qc 1 (nth t zs []) j 0) /\
    (forall i, (i < n)%nat -> x (length zs) i == qc 1 (kf_x (w_kf w')) i 0 /\ Qabs (qc 1 (kf_x (w_kf w')) i 0) <= X i).
Proof.
  intros HZ. destruct HG as (g & r & G0 & GS).
  assert (INV : exists f' o' x, (forall oc da, run c (fx_num bits frac oc da) n (mk_world f cs ((m, o) :: rest)) (readings_ops zs) = Ok (mk_world f' cs ((m, o') :: rest))) /\
    kf_cov c n f' (g (length zs)) /\ kf_A f' = kf_A f /\ ob_valid c n m o' /\ ob_H o' = ob_H o /\ ob_R o' = ob_R o /\
    (forall i, (i < n)%nat -> x 0%nat i == qc 1 (kf_x f) i 0) /\ q_follows frac n m A H Kq (length zs) x (fun t j => qc 1 (nth t zs []) j 0) /\
    (forall i, (i < n)%nat -> x (length zs) i == qc 1 (kf_x f') i 0)).
  { induction zs as [|z zs IH] using rev_ind.
    - exists f, o, (fun _ i => qc 1 (kf_x f) i 0). split; [reflexivity|]. split; [exact G0|]. split; [reflexivity|]. split; [exact Vo|]. do 2 (split; [reflexivity|]).
      split; [intros; reflexivity|]. split; [|intros; reflexivity]. intros t i Ht. cbn in Ht. lia.
    - apply Forall_app in HZ. destruct HZ as (HZs & Hz1). pose proof (Forall_inv Hz1) as (Lz & Bz).
      destruct (IH HZs) as (f' & o' & x & E & CF & EA & Vo' & EH & ER & X0 & XF & XE). clear IH. set (T := length zs) in *.
      destruct (GS T) as (GO & g1 & r' & P1 & P2 & EK).
      set (o1 := mk_obs (ob_H o') (put (ob_z o') z) (ob_R o') (ob_y o') (ob_S o') (ob_K o') (ob_Sinv o') (ob_HP o') (ob_PHt o') (ob_KHP o')).
      assert (Vo1 : ob_valid c n m o1). { destruct Vo' as (V1 & V2 & V3 & V4 & V5 & V6 & V7 & V8 & V9 & V10). unfold ob_valid. cbn [o1 ob_H ob_z ob_R ob_y ob_S ob_K ob_Sinv ob_HP ob_PHt ob_KHP]. pose proof (valid_put z _ V2). tauto. }
      assert (CO : ob_cov c n m o1 (r T)). { destruct GO as (_ & Vr & S1 & S2). split; [exact Vo1|]. split; [exact Vr|]. cbn [o1 ob_H ob_R]. rewrite EH, ER. split; assumption. }
      assert (PZ : forall j, (j < m)%nat -> qc 1 (ob_z o1) j 0 = qc 1 z j 0).
      { intros j Hj. destruct Vo' as (_ & (V2 & _) & _). unfold qcell, cell. cbn [o1 ob_z]. rewrite nth_put by lia. destruct (Nat.ltb_spec (j * 1 + 0) (length z)); [reflexivity|lia]. }
      destruct (fx_turn_state c bits frac Hf n m f' (g T) g1 (g (S T)) o1 (r T) r' X Zb Hn Hm CF CO P1 P2) as (f1 & o2 & f2 & F1 & F2 & C1 & C2 & C3 & C4 & XX).
      + intros i Hi. rewrite <- (XE i Hi). apply (HS T x (fun t j => qc 1 (nth t zs []) j 0)); auto.
        intros t j Ht Hj. rewrite Forall_forall in HZs. apply (HZs (nth t zs [])); auto. apply nth_In. exact Ht.
      + intros j Hj. rewrite (PZ j Hj). apply Bz, Hj.
      + rewrite EA, EK. cbn [o1 ob_H]. rewrite EH. apply (HR T).
      + exists f2, o2, (fun t => if (t <=? T)%nat then x t else fun i => qc 1 (kf_x f2) i 0).
        assert (LT : length (zs ++ [z]) = S T) by (rewrite app_length; cbn; unfold T; lia). rewrite LT.
        pose proof (F1 true true) as F1c. pose proof (F2 true true) as F2c.
        pose proof C1 as (Vf1 & _). pose proof CF as (Vf' & _).
        pose proof (predict_wp c NC n f' Hn Vf') as W1. rewrite F1c in W1. cbn [wp] in W1. destruct W1 as (_ & (SA1 & _) & _).
        pose proof (correct_wp c NC n m o1 f1 Hn Hm Vo1 Vf1) as W2. rewrite F2c in W2. cbn [wp fst snd] in W2. destruct W2 as (Vo2 & (SH & _ & SR) & _ & (SA2 & _) & _).
        split; [|split; [exact C2|]].
        { intros oc da. unfold readings_ops. rewrite flat_map_app. eapply run_app_ok; [apply E|]. cbn [flat_map reading_ops app]. cbn [run step w_kf]. rewrite F1. cbn [bind]. unfold set_kf. cbn [w_ct w_ob].
          cbn [step run w_ob nth_error bind]. unfold set_ob. cbn [w_kf w_ct w_ob upd]. fold o1. cbn [bind nth_error w_kf]. rewrite F2. cbn [bind]. unfold set_kf. cbn. reflexivity. }
        split; [rewrite SA2, SA1; exact EA|]. split; [exact Vo2|]. split; [rewrite SH; exact EH|]. split; [rewrite SR; exact ER|].
        split; [intros i Hi; cbn; apply X0, Hi|]. split.
        * intros t i Ht Hi. cbv beta. destruct (Nat.eq_dec t T) as [->|].
          -- rewrite (proj2 (Nat.leb_gt (S T) T)) by lia. rewrite Nat.leb_refl. rewrite app_nth2 by (unfold T; lia). replace (T - length zs)%nat with 0%nat by (unfold T; lia). cbn [nth].
             eapply Qle_trans; [|cbn [o1 ob_H] in XX; rewrite EA, EH, EK in XX; apply (XX i Hi)]. apply Qle_lteq. right. apply Qabs_wd. unfold Qminus. apply Qplus_comp; [reflexivity|]. apply Qopp_comp.
             assert (EP : forall l, q_predicted n A (x T) l == q_predicted n A (fun k => qc 1 (kf_x f') k 0) l).
             { intros l. apply LinPath.qsum_eq. intros k Hk. rewrite (XE k Hk). reflexivity. }
             unfold q_turn_state. apply Qplus_comp; [apply EP|]. apply LinPath.qsum_eq. intros j Hj. rewrite (PZ j Hj).
             apply Qmult_comp; [reflexivity|]. apply Qplus_comp; [reflexivity|]. apply Qopp_comp. apply LinPath.qsum_eq. intros l Hl. rewrite EP. reflexivity.
          -- rewrite (proj2 (Nat.leb_le (S t) T)) by lia. rewrite (proj2 (Nat.leb_le t T)) by lia. rewrite app_nth1 by (unfold T in *; lia). apply XF; [lia|auto].
        * intros i Hi. rewrite (proj2 (Nat.leb_gt (S T) T)) by lia. reflexivity. }
  destruct INV as (f' & o' & x & E & CF & EA & Vo' & EH & ER & X0 & XF & XE). exists (mk_world f' cs ((m, o') :: rest)), x. cbn [w_kf].
  split; [exact E|]. split; [exact X0|]. split; [exact XF|]. intros i Hi. split; [apply XE, Hi|]. rewrite <- (XE i Hi).
  apply (HS (length zs) x (fun t j => qc 1 (nth t zs []) j 0)); auto.
  intros t j Ht Hj. rewrite Forall_forall in HZ. apply (HZ (nth t zs [])); auto. apply nth_In. exact Ht.
Qed.
End Run.
