(** * Loops of programs that predict, write a reading and correct, in floating point *)
From Coq Require Import ZArith QArith Qabs Qreals Reals Lra Psatz Lia List.
From Flocq Require Import Core BinarySingleNaN.
From Verif Require Import Prelude Spec SpecBits Matrix Filter SpecFilter Wp Kernels FilterTwo History HistGen HistTwo SpecGen FloatNum SpecFloats SpecReal SpecRange SpecStable SpecTurn FloatGen FloatFlocq FloatOps FloatErr FloatPredict FloatFmt FloatUpdate FloatRange FloatTurn FloatSelect BitsProof BuildSim FloatWit TurnProof TurnRun SpecFixedRange SpecFixedGain FixedCert LinPath FloatQ FloatCert FloatTrack GravityFloat.
Import ListNotations SpecFloat.
Open Scope R_scope.

Lemma ltb_val prec emax x y : format_ok prec emax -> in_format prec emax x -> in_format prec emax y -> sf_finite x = true -> sf_finite y = true -> SFltb x y = true <-> val x < val y.
Proof.
  intros (H1 & H2) Vx Vy Fx Fy. assert (hprec : Prec_gt_0 prec) by (red; lia). assert (hmax : Prec_lt_emax prec emax) by exact H2.
  apply vf_B in Vx, Vy. destruct Vx as [a ->], Vy as [b ->]. rewrite (fin_B prec emax) in Fx, Fy. unfold val. rewrite !SF2R_B2SF. change (SFltb (B2SF a) (B2SF b)) with (Bltb a b).
  rewrite (Bltb_correct prec emax a b Fx Fy). split; intros E; [revert E; apply Rlt_bool_true_inv || (destruct (Rlt_bool_spec (B2R a) (B2R b)); [auto|discriminate])|apply Rlt_bool_true, E].
Qed.

Lemma loop_seq {S} (body : nat -> S -> res S) (Inv : nat -> S -> Prop) (P : nat -> S -> S -> Prop) : forall T lo s0, Inv lo s0 ->
  (forall t s, (lo <= t < lo + T)%nat -> Inv t s -> exists s', body t s = Ok s' /\ Inv (Datatypes.S t) s' /\ P t s s') ->
  exists st, st 0%nat = s0 /\ (forall t, (t < T)%nat -> P (lo + t)%nat (st t) (st (Datatypes.S t))) /\ for_up T lo s0 body = Ok (st T) /\ Inv (lo + T)%nat (st T).
Proof.
  induction T as [|T IH]; intros lo s0 I0 HS.
  - exists (fun _ => s0). split; [reflexivity|]. split; [lia|]. split; [reflexivity|]. rewrite Nat.add_0_r. exact I0.
  - destruct (HS lo s0 ltac:(lia) I0) as (s1 & E1 & I1 & P1). destruct (IH (Datatypes.S lo) s1 I1) as (st & S0 & SP & SE & SI); [intros t s Ht; apply HS; lia|].
    exists (fun t => match t with O => s0 | Datatypes.S t' => st t' end). split; [reflexivity|]. split; [|split].
    + intros [|t] Ht; [rewrite Nat.add_0_r, S0; exact P1|]. replace (lo + Datatypes.S t)%nat with (Datatypes.S lo + t)%nat by lia. apply SP. lia.
    + cbn [for_up]. rewrite E1. cbn [bind]. exact SE.
    + replace (lo + Datatypes.S T)%nat with (Datatypes.S lo + T)%nat by lia. exact SI.
Qed.

Section Prog.
Variables (c : cfg) (prec emax : Z) (sz : bool).
Hypothesis HF : format_ok prec emax.
Notation NN := (sf_num prec emax sz).
Variables (n : nat) (s : nat -> nat) (f0 : kalman spec_float) (o0 : observation spec_float).
Hypotheses (Hn : (1 <= n)%nat) (Vo0 : ob_valid c n 1 o0) (IA : fin_matrix n n (kf_A f0)) (IH : fin_matrix 1 n (ob_H o0)) (HS : selects n 1 (rcell n (ob_H o0)) s).
Definition kf_inv (g f : kalman spec_float) : Prop := kf_cov c n f g /\ kf_all_format prec emax f /\ kf_A f = kf_A f0 /\ length (kf_x f) = n.
Definition ob_inv (o : observation spec_float) : Prop := ob_valid c n 1 o /\ ob_format prec emax o /\ ob_H o = ob_H o0 /\ ob_R o = ob_R o0 /\ length (ob_z o) = 1%nat.
Lemma ob_inv_cov o z : ob_inv o -> length z = 1%nat -> ob_cov c n 1 (put_z o z) o0.
Proof.
  intros (Vo & _ & EH & ER & LZ) Lz. split.
  - destruct Vo as (V1 & (V2 & V2') & V3 & V4 & V5 & V6 & V7 & V8 & V9 & V10). unfold ob_valid. cbn [put_z ob_H ob_z ob_R ob_y ob_S ob_K ob_Sinv ob_HP ob_PHt ob_KHP].
    assert (V2'' : valid c 1 1 z). { split; [lia|]. red. red in V2'. lia. } tauto.
  - split; [exact Vo0|]. cbn [put_z ob_H ob_R]. rewrite EH, ER. split; intros p Hp; reflexivity.
Qed.
Lemma prog_turn g g1 g2 o' K f f1 o v : kf_inv g f -> pred_step c prec emax n f f1 g1 -> ob_inv o -> in_format prec emax v -> correct c NN n 1 o0 g1 = Ok (o', g2) -> ob_K o' = K -> fin_matrix n 1 K ->
  exists o2 f2, correct c NN n 1 (put_z o [v]) f1 = Ok (o2, f2) /\ kf_inv g2 f2 /\ ob_inv o2 /\ turn_fact prec emax n 1 s (kf_A f0) (ob_H o0) (kf_x f) (kf_x f2) [v] K.
Proof.
  intros (Cf & Ff & EA & LX) PS Io Fv E EK IK. pose proof Io as (Vo & Fo & EH & ER & LZ).
  assert (Fo1 : ob_format prec emax (put_z o [v])).
  { destruct Fo as (V1 & V2 & V3 & V4 & V5 & V6 & V7 & V8 & V9 & V10). unfold ob_format. cbn [put_z ob_H ob_z ob_R ob_y ob_S ob_K ob_Sinv ob_HP ob_PHt ob_KHP].
    assert (FZ : all_in_format prec emax [v]) by (constructor; [exact Fv|constructor]). tauto. }
  destruct (correct_step c prec emax sz HF n 1 f f1 g1 g2 (put_z o [v]) o0 o' Hn (le_n 1) PS (ob_inv_cov o [v] Io eq_refl) Fo1 E) as (o2 & f2 & E2 & C1 & C2 & C3 & C4 & C5 & C6 & (M1 & M2 & M3) & ST).
  exists o2, f2. split; [exact E2|]. cbn [put_z ob_H ob_z ob_R] in *. split; [split; [exact C1|split; [exact C3|split; congruence]]|].
  split; [split; [apply C2|split; [exact C4|split; [congruence|split; [congruence|rewrite M2; reflexivity]]]]|].
  intros X Yb Fx Fz HY RM. cbv zeta in ST. rewrite EA, EH, EK in ST. destruct (ST X IA IH Fx IK) as (_ & ST2). exact (ST2 s Yb Fz HS HY RM).
Qed.

(** the two tests *)
Variables (pr : kalman spec_float -> res (kalman spec_float)) (T : nat) (G : nat -> kalman spec_float) (Ks : nat -> list spec_float).
Hypothesis Hpr : forall f g g1, kf_cov c n f g -> kf_all_format prec emax f -> pr g = Ok g1 -> exists f1, pr f = Ok f1 /\ pred_step c prec emax n f f1 g1.
Hypothesis HG : forall t, (t < T)%nat -> exists g1 o', pr (G t) = Ok g1 /\ correct c NN n 1 o0 g1 = Ok (o', G (S t)) /\ ob_K o' = Ks t /\ fin_matrix n 1 (Ks t).
Hypothesis H0 : kf_inv (G 0%nat) f0.
Hypothesis Ho : ob_inv o0.
Variables (D E : list spec_float).
Hypotheses (LD : (T <= length D)%nat) (LE : (T <= length E)%nat) (FD : all_in_format prec emax D) (FE : all_in_format prec emax E).
Notation zero := (S754_zero false).
Definition rdg (t : nat) : list spec_float := [SFadd prec emax (nth t D zero) (nth t E zero)].
Lemma nth_fmt l t : all_in_format prec emax l -> in_format prec emax (nth t l zero).
Proof.
  intros F. destruct (Nat.lt_ge_cases t (length l)) as [L|L]; [|rewrite nth_overflow by exact L; reflexivity]. unfold all_in_format in F. rewrite Forall_forall in F. apply F, nth_In, L.
Qed.
Definition test_body (t : nat) (st : kalman spec_float * observation spec_float) : res (kalman spec_float * observation spec_float) :=
  let '(f, o) := st in
  f <- pr f ;;
  d <- rd D t ;; e <- rd E t ;; m <- n_add NN d e ;;
  z <- index_set (ob_z o) 0 m ;;
  r <- correct c NN n 1 (put_z o z) f ;;
  let '(o, f) := r in Ok (f, o).
Lemma set_one (l : list spec_float) v : length l = 1%nat -> index_set l 0 v = Ok [v].
Proof. intros L. destruct l as [|a [|? ?]]; [discriminate L| |discriminate L]. reflexivity. Qed.
Theorem test_loop : exists xs fo, for_up T 0 (f0, o0) test_body = Ok fo /\ xs 0%nat = kf_x f0 /\ xs T = kf_x (fst fo) /\ length (xs T) = n /\ all_in_format prec emax (xs T) /\
  forall t, (t < T)%nat -> turn_fact prec emax n 1 s (kf_A f0) (ob_H o0) (xs t) (xs (S t)) (rdg t) (Ks t).
Proof.
  assert (hprec : Prec_gt_0 prec) by (destruct HF; red; lia). assert (hmax : Prec_lt_emax prec emax) by apply HF.
  destruct (loop_seq test_body (fun t st => kf_inv (G t) (fst st) /\ ob_inv (snd st)) (fun t st st' => turn_fact prec emax n 1 s (kf_A f0) (ob_H o0) (kf_x (fst st)) (kf_x (fst st')) (rdg t) (Ks t)) T 0 (f0, o0)) as (st & S0 & SP & SE & SI & _).
  - split; assumption.
  - intros t (f, o) Ht (If & Io). cbn [fst snd] in If, Io. destruct (HG t ltac:(lia)) as (g1 & o' & P1 & P2 & P3 & P4). pose proof If as (Cf & Ff & _).
    destruct (Hpr f (G t) g1 Cf Ff P1) as (f1 & E1 & PS).
    assert (FV : in_format prec emax (SFadd prec emax (nth t D zero) (nth t E zero))) by (apply (vf_add prec emax hprec hmax); apply nth_fmt; assumption).
    destruct (prog_turn (G t) g1 (G (S t)) o' (Ks t) f f1 o _ If PS Io FV P2 P3 P4) as (o2 & f2 & E2 & I1 & I2 & TF).
    exists (f2, o2). split; [|split; [split; assumption|exact TF]]. unfold test_body. rewrite E1. cbn [bind]. unfold rd.
    rewrite (nth_error_nth' D zero) by lia. rewrite (nth_error_nth' E zero) by lia. cbn [bind]. change (n_add NN (nth t D zero) (nth t E zero)) with (Ok (SFadd prec emax (nth t D zero) (nth t E zero))). cbn [bind].
    destruct Io as (_ & _ & _ & _ & LZ). rewrite set_one by exact LZ. cbn [bind]. rewrite E2. reflexivity.
  - exists (fun t => kf_x (fst (st t))), (st T). split; [exact SE|]. split; [rewrite S0; reflexivity|]. split; [reflexivity|].
    cbn [fst] in SI. destruct SI as (_ & ((_ & F & _) & _) & _ & L). split; [exact L|]. split; [exact F|]. exact SP.
Qed.
End Prog.
