(** * Any number of turns of a floating-point filter *)
From Coq Require Import ZArith Reals Lra Psatz Lia.
From Flocq Require Import Core BinarySingleNaN.
From Verif Require Import Prelude Spec SpecBits Matrix Filter SpecFilter Wp Kernels FilterTwo History HistGen HistTwo SpecGen FloatNum SpecFloats SpecReal SpecRange SpecStable SpecTurn FloatGen FloatFlocq FloatErr FloatPredict FloatFmt TurnProof TurnRun.
Import SpecFloat.
Open Scope R_scope.

Section Run.
Variables (c : cfg) (prec emax : Z) (sz : bool).
Hypothesis HF : format_ok prec emax.
Notation NN := (sf_num prec emax sz).
Variables (n m : nat) (f : kalman spec_float) (o : observation spec_float) (K : nat -> list spec_float) (X Zb : nat -> R).
Hypotheses (Hn : (1 <= n)%nat) (Hm : (1 <= m)%nat) (Vo : ob_valid c n m o) (Ff : kf_all_format prec emax f) (Fo : ob_format prec emax o) (HG : fl_gains c prec emax sz n m f o K).
Hypotheses (IA : fin_matrix n n (kf_A f)) (IH : fin_matrix m n (ob_H o)) (Ix : fin_matrix n 1 (kf_x f)).
Notation A := (rcell n (kf_A f)). Notation H := (rcell n (ob_H o)). Notation Kr := (fun t => rcell m (K t)).
Hypothesis HR : forall t, r_turn_room prec emax n m A H (Kr t) X Zb.
Hypothesis HS : r_stays prec emax n m A H Kr (fun i => rcell 1 (kf_x f) i 0) Zb X.

Lemma run_app_ok' (N : num spec_float) w os1 os2 w1 w2 : run c N n w os1 = Ok w1 -> run c N n w1 os2 = Ok w2 -> run c N n w (os1 ++ os2) = Ok w2.
Proof.
  revert w. induction os1 as [|a os1 IHo]; cbn; intros w E1 E2; [injection E1 as <-; exact E2|]. destruct (step c N n w a) as [w'|]; cbn in *; [apply IHo; auto|discriminate].
Qed.
Lemma put_fmt (z l : list spec_float) : all_in_format prec emax z -> all_in_format prec emax l -> all_in_format prec emax (put l z).
Proof.
  unfold all_in_format. intros Fz Fl. unfold put. apply Forall_app. split; [|apply Forall_forall; intros x Hx; rewrite Forall_forall in Fl; apply Fl; clear - Hx; revert l Hx; induction (length z); intros [|a l] Hx; cbn in *; auto].
  apply Forall_forall. intros x Hx. rewrite Forall_forall in Fz. apply Fz. clear - Hx. revert z Hx. induction (length l); intros [|a z] Hx; cbn in *; try tauto. destruct Hx; auto.
Qed.

Theorem fl_readings cs rest zs : Forall (fl_reading_ok prec emax m Zb) zs ->
  exists w' x, run c NN n (mk_world f cs ((m, o) :: rest)) (fl_readings_ops zs) = Ok w' /\
    (forall i, (i < n)%nat -> x 0%nat i = rcell 1 (kf_x f) i 0) /\ r_follows prec emax n m A H Kr X Zb (length zs) x (fun t j => rcell 1 (nth t zs []) j 0) /\
    fin_vector n (kf_x (w_kf w')) X /\ (forall i, (i < n)%nat -> x (length zs) i = rcell 1 (kf_x (w_kf w')) i 0).
Proof.
  intros HZ. destruct HG as (g & r & G0 & GS).
  assert (INV : exists f' o' x, run c NN n (mk_world f cs ((m, o) :: rest)) (fl_readings_ops zs) = Ok (mk_world f' cs ((m, o') :: rest)) /\
    kf_cov c n f' (g (length zs)) /\ kf_all_format prec emax f' /\ ob_format prec emax o' /\ kf_A f' = kf_A f /\ ob_valid c n m o' /\ ob_H o' = ob_H o /\ ob_R o' = ob_R o /\
    (forall i, (i < n)%nat -> x 0%nat i = rcell 1 (kf_x f) i 0) /\ r_follows prec emax n m A H Kr X Zb (length zs) x (fun t j => rcell 1 (nth t zs []) j 0) /\
    fin_matrix n 1 (kf_x f') /\ (forall i, (i < n)%nat -> x (length zs) i = rcell 1 (kf_x f') i 0)).
  { induction zs as [|z zs IHz] using rev_ind.
    - exists f, o, (fun _ i => rcell 1 (kf_x f) i 0). split; [reflexivity|]. split; [exact G0|]. split; [exact Ff|]. split; [exact Fo|]. split; [reflexivity|]. split; [exact Vo|]. do 2 (split; [reflexivity|]).
      split; [intros; reflexivity|]. split; [|split; [exact Ix|intros; reflexivity]]. intros t i Ht. cbn in Ht. lia.
    - apply Forall_app in HZ. destruct HZ as (HZs & Hz1). pose proof (Forall_inv Hz1) as (Lz & Fz & Bz).
      destruct (IHz HZs) as (f' & o' & x & E & CF & Ff' & Fo' & EA & Vo' & EH & ER & X0 & XF & If & XE). clear IHz. set (T := length zs) in *.
      destruct (GS T) as (GO & g1 & r' & P1 & P2 & EK & IK).
      set (o1 := mk_obs (ob_H o') (put (ob_z o') z) (ob_R o') (ob_y o') (ob_S o') (ob_K o') (ob_Sinv o') (ob_HP o') (ob_PHt o') (ob_KHP o')).
      assert (Vo1 : ob_valid c n m o1). { destruct Vo' as (V1 & V2 & V3 & V4 & V5 & V6 & V7 & V8 & V9 & V10). unfold ob_valid. cbn [o1 ob_H ob_z ob_R ob_y ob_S ob_K ob_Sinv ob_HP ob_PHt ob_KHP]. pose proof (put_valid c m 1 _ z V2). tauto. }
      assert (Fo1 : ob_format prec emax o1). { destruct Fo' as (V1 & V2 & V3 & V4 & V5 & V6 & V7 & V8 & V9 & V10). unfold ob_format. cbn [o1 ob_H ob_z ob_R ob_y ob_S ob_K ob_Sinv ob_HP ob_PHt ob_KHP]. pose proof (put_fmt z _ Fz V2). tauto. }
      assert (CO : ob_cov c n m o1 (r T)). { destruct GO as (_ & Vr & S1 & S2). split; [exact Vo1|]. split; [exact Vr|]. cbn [o1 ob_H ob_R]. rewrite EH, ER. split; assumption. }
      assert (PC : forall j, (j < m)%nat -> cell 1 (ob_z o1) j 0 = cell 1 z j 0).
      { intros j Hj. destruct Vo' as (_ & (V2 & _) & _). unfold cell. cbn [o1 ob_z]. rewrite nth_put by lia. destruct (Nat.ltb_spec (j * 1 + 0) (length z)); [reflexivity|lia]. }
      assert (PZ : forall j, (j < m)%nat -> rcell 1 (ob_z o1) j 0 = rcell 1 z j 0) by (intros j Hj; unfold rcell; rewrite PC by exact Hj; reflexivity).
      assert (IZ : fin_vector m (ob_z o1) Zb).
      { destruct Bz as (B1 & B2). split; [|intros j Hj; rewrite PZ by exact Hj; apply B2, Hj]. intros j k Hj Hk. assert (k = 0%nat) as -> by lia. rewrite PC by exact Hj. apply B1; auto. }
      assert (XB : fin_vector n (kf_x f') X).
      { split; [exact If|]. intros i Hi. rewrite <- (XE i Hi). apply (HS T x (fun t j => rcell 1 (nth t zs []) j 0)); auto.
        intros t j Ht Hj. rewrite Forall_forall in HZs. destruct (HZs (nth t zs [])) as (_ & _ & _ & B); [apply nth_In; exact Ht|]. apply B, Hj. }
      destruct (predict_step c prec emax sz HF n f' (g T) g1 Hn CF Ff' P1) as (f1 & F1 & S1).
      destruct (correct_step c prec emax sz HF n m f' f1 g1 (g (S T)) o1 (r T) r' Hn Hm S1 CO Fo1 P2) as (o2 & f2 & F2 & C2 & C3 & C4 & C5 & C6 & C7 & (SH & SZ & SR) & XX).
      cbv zeta in XX. cbn [o1 ob_H] in XX. rewrite EA, EH, EK in XX. destruct (XX X IA IH XB IK) as (XX1 & _). clear XX. destruct (XX1 Zb IZ (HR T)) as (I2 & XX). clear XX1.
      exists f2, o2, (fun t => if (t <=? T)%nat then x t else fun i => rcell 1 (kf_x f2) i 0).
      assert (LT : length (zs ++ [z]) = S T) by (rewrite app_length; cbn; unfold T; lia). rewrite LT.
      split; [|split; [exact C2|]].
      { unfold fl_readings_ops. rewrite flat_map_app. eapply run_app_ok'; [apply E|]. cbn [flat_map fl_reading_ops app]. cbn [run step w_kf]. rewrite F1. cbn [bind]. unfold set_kf. cbn [w_ct w_ob].
        cbn [step run w_ob nth_error bind]. unfold set_ob. cbn [w_kf w_ct w_ob upd]. fold o1. cbn [bind nth_error w_kf]. rewrite F2. cbn [bind]. unfold set_kf. cbn. reflexivity. }
      split; [exact C4|]. split; [exact C5|]. split; [congruence|]. split; [apply C3|]. split; [rewrite SH; exact EH|]. split; [rewrite SR; exact ER|].
      split; [intros i Hi; cbn; apply X0, Hi|]. split; [|split; [exact I2|]].
      + intros t i Ht Hi. cbv beta. destruct (Nat.eq_dec t T) as [->|].
        * rewrite (proj2 (Nat.leb_gt (S T) T)) by lia. rewrite Nat.leb_refl. rewrite app_nth2 by (unfold T; lia). replace (T - length zs)%nat with 0%nat by (unfold T; lia). cbn [nth].
          rewrite (turn_state_ext n m A H _ _ (fun _ _ _ _ => eq_refl) (x T) (fun k => rcell 1 (kf_x f') k 0) _ (fun j => rcell 1 (ob_z o1) j 0) i Hi XE (fun j Hj => eq_sym (PZ j Hj))). apply (XX i Hi).
        * rewrite (proj2 (Nat.leb_le (S t) T)) by lia. rewrite (proj2 (Nat.leb_le t T)) by lia. rewrite app_nth1 by (unfold T in *; lia). apply XF; [lia|auto].
      + intros i Hi. rewrite (proj2 (Nat.leb_gt (S T) T)) by lia. reflexivity. }
  destruct INV as (f' & o' & x & E & CF & Ff' & Fo' & EA & Vo' & EH & ER & X0 & XF & If & XE). exists (mk_world f' cs ((m, o') :: rest)), x. cbn [w_kf].
  split; [exact E|]. split; [exact X0|]. split; [exact XF|]. split; [|exact XE]. split; [exact If|]. intros i Hi. rewrite <- (XE i Hi).
  apply (HS (length zs) x (fun t j => rcell 1 (nth t zs []) j 0)); auto.
  intros t j Ht Hj. rewrite Forall_forall in HZ. destruct (HZ (nth t zs [])) as (_ & _ & _ & B); [apply nth_In; exact Ht|]. apply B, Hj.
Qed.
End Run.
