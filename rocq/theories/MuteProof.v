(** * An infinite noise variance switches a component off: the user's calls *)
From Coq Require Import ZArith Lia List Floats.SpecFloat.
From Verif Require Import Prelude Numeric FloatNum Matrix Filter Extended Spec SpecFilter SpecBits SpecFloats SpecRest BitsProof Kernels FilterTwo Poison SpecMute Mute BuildSim FloatWit.
Import ListNotations.
Local Open Scope nat_scope.

Section Calls.
Variables (prec emax : Z) (sz : bool) (c : cfg).
Notation N := (sf_num prec emax sz).
Notation sf := spec_float.
Notation oo := (S754_infinity false).

Lemma fin_of n R (l : list sf) : valid c R n l -> all_cells R n float_finite l -> forall i j, i < R -> j < n -> ofin (cell n l i j).
Proof. intros V H i j Hi Hj. destruct (Kernels.cell_some c R n l i j V Hi Hj) as (v & E & _). rewrite E. exact (H i j v Hi Hj E). Qed.
Lemma zero_of (o : option sf) v : ozero o -> o = Some v -> float_zero v.
Proof. intros H ->. exact H. Qed.
Lemma same_of (a b : option sf) u v : osame a b -> a = Some u -> b = Some v -> float_same u v.
Proof. intros H -> ->. exact H. Qed.


Section Two.
Variables (n m k : nat) (o o' o1 o1' : observation sf) (f f' f1' : kalman sf).
Hypothesis Hn : 1 <= n.
Hypothesis Hk : k <= m.
Hypothesis Vo : ob_valid c n (S m) o.
Hypothesis Vf : kf_valid c n f.
Hypothesis Vf' : kf_valid c n f'.
Hypothesis Rk : cell (S m) (ob_R o) k k = Some oo.
Hypothesis Fx : all_cells n 1 float_finite (kf_x f').
Hypothesis FP : all_cells n n float_finite (kf_P f').
Hypothesis U : b_update N n (S m) (cell n (ob_H o)) (cell (S m) (ob_R o)) (cell n (kf_P f)) (cell 1 (kf_x f)) (cell 1 (ob_y o'))
    (cell (S m) (ob_S o')) (cell (S m) (ob_Sinv o')) (cell (S m) (ob_K o')) (cell 1 (kf_x f')) (cell n (kf_P f')).
Lemma fx : forall i, i < n -> ofin (cell 1 (kf_x f') i 0).
Proof. intros i Hi. apply (fin_of 1 n); [apply Vf'|exact Fx|exact Hi|lia]. Qed.
Lemma fP : forall i j, i < n -> j < n -> ofin (cell n (kf_P f') i j).
Proof. apply (fin_of n n); [apply Vf'|exact FP]. Qed.
Lemma two_alone : m = 0 -> same_vector float_same n (kf_x f') (kf_x f) /\ same_cells n (kf_P f') (kf_P f) /\ switched_off n (S m) k o'.
Proof.
  intros Hm. destruct (upd_alone prec emax sz n m k _ _ _ _ _ _ _ _ _ _ Hn Hk U Rk fx fP Hm) as (A & B & D). repeat split.
  - intros i v v' Hi E E'. exact (same_of _ _ _ _ (B i Hi) E E').
  - intros i j v v' Hi Hj E E'. exact (same_of _ _ _ _ (D i j Hi Hj) E E').
  - intros i v Hi E. exact (zero_of _ _ (A i Hi) E).
Qed.
Hypothesis LO : leaves_out n m k o o1.
Hypothesis Hy : forall i, i < m -> osame (cell 1 (ob_y o') (skip k i) 0) (cell 1 (ob_y o1') i 0).
Hypothesis U1 : b_update N n m (cell n (ob_H o1)) (cell m (ob_R o1)) (cell n (kf_P f)) (cell 1 (kf_x f)) (cell 1 (ob_y o1'))
    (cell m (ob_S o1')) (cell m (ob_Sinv o1')) (cell m (ob_K o1')) (cell 1 (kf_x f1')) (cell n (kf_P f1')).
Hypothesis DE : decomposed N n m o1 o1' f.
Lemma two_reduced : 1 <= m -> same_vector float_same n (kf_x f') (kf_x f1') /\ same_cells n (kf_P f') (kf_P f1') /\ switched_off n (S m) k o'.
Proof.
  intros Hm. destruct LO as (LH & _ & LR).
  destruct (upd_reduced prec emax sz n m k _ _ _ _ _ _ _ _ _ _ Hn Hk U Rk fx fP _ _ _ _ _ _ _ _ Hm LH LR Hy U1 DE) as (A & _ & B & D). repeat split.
  - intros i v v' Hi E E'. exact (same_of _ _ _ _ (B i Hi) E E').
  - intros i j v v' Hi Hj E E'. exact (same_of _ _ _ _ (D i j Hi Hj) E E').
  - intros i v Hi E. exact (zero_of _ _ (A i Hi) E).
Qed.
End Two.

Theorem mute_alone n (o o' : observation sf) (f f' : kalman sf) :
  1 <= n -> ob_valid c n 1 o -> kf_valid c n f -> cell 1 (ob_R o) 0 0 = Some oo ->
  correct c N n 1 o f = Ok (o', f') -> all_cells n 1 float_finite (kf_x f') -> all_cells n n float_finite (kf_P f') ->
  same_vector float_same n (kf_x f') (kf_x f) /\ same_cells n (kf_P f') (kf_P f) /\ switched_off n 1 0 o'.
Proof.
  intros Hn Vo Vf Rk E Fx FP. pose proof (correct_wp c N n 1 o f Hn (le_n 1) Vo Vf) as W. rewrite E in W.
  apply (two_alone n 0 0 o o' f f' Hn (le_n 0)); auto; [apply W|]. apply (correct_bits' _ c N n 1 o o' f f' Hn (le_n 1) Vo Vf E).
Qed.
Theorem mute_nl_alone n h (o o' : observation sf) (f f' : kalman sf) :
  1 <= n -> ob_valid c n 1 o -> kf_valid c n f -> closure_ok c N 1 n h -> cell 1 (ob_R o) 0 0 = Some oo ->
  correct_nonlinear c N n 1 h o f = Ok (o', f') -> all_cells n 1 float_finite (kf_x f') -> all_cells n n float_finite (kf_P f') ->
  same_vector float_same n (kf_x f') (kf_x f) /\ same_cells n (kf_P f') (kf_P f) /\ switched_off n 1 0 o'.
Proof.
  intros Hn Vo Vf Hh Rk E Fx FP. pose proof (correct_nonlinear_wp c N n 1 h o f Hn (le_n 1) Vo Vf Hh) as W. rewrite E in W.
  apply (two_alone n 0 0 o o' f f' Hn (le_n 0)); auto; [apply W|].
  apply (correct_nl_bits' _ c N n 1 h o o' f f' Hn (le_n 1) Vo Vf (closure_out c prec emax sz 1 n h (kf_x f) (ob_y o) Hh ltac:(apply Vf) ltac:(apply Vo)) E).
Qed.
Theorem mute_correct n m k (o o' o1 o1' : observation sf) (f f' f1' : kalman sf) :
  1 <= n -> 1 <= m -> k <= m -> ob_valid c n (S m) o -> ob_valid c n m o1 -> kf_valid c n f ->
  leaves_out n m k o o1 -> cell (S m) (ob_R o) k k = Some oo ->
  correct c N n (S m) o f = Ok (o', f') -> correct c N n m o1 f = Ok (o1', f1') -> decomposed N n m o1 o1' f ->
  all_cells n 1 float_finite (kf_x f') -> all_cells n n float_finite (kf_P f') ->
  same_vector float_same n (kf_x f') (kf_x f1') /\ same_cells n (kf_P f') (kf_P f1') /\ switched_off n (S m) k o'.
Proof.
  intros Hn Hm Hk Vo Vo1 Vf LO Rk E E1 DE Fx FP. assert (Hm' : 1 <= S m) by lia.
  pose proof (correct_wp c N n (S m) o f Hn Hm' Vo Vf) as W. rewrite E in W.
  destruct (correct_bits' _ c N n (S m) o o' f f' Hn Hm' Vo Vf E) as [Y U]. destruct (correct_bits' _ c N n m o1 o1' f f1' Hn Hm Vo1 Vf E1) as [Y1 U1].
  apply (two_reduced n m k o o' o1 o1' f f' f1' Hn Hk); auto; [apply W|].
  intros i Hi. pose proof (skip_bound k i m Hi). rewrite Y, Y1 by lia. destruct LO as (LH & LZ & _). rewrite LZ by lia. apply sub_same; [apply osame_refl|].
  unfold b_prodv. destruct n as [|n']; [lia|]. rewrite !dot1_gsum. apply gsum_same; [exact (add_same prec emax sz)|rewrite LH by lia; apply osame_refl|].
  intros t Ht. rewrite LH by lia. apply osame_refl.
Qed.
Theorem mute_nl n m k h h1 (o o' o1 o1' : observation sf) (f f' f1' : kalman sf) :
  1 <= n -> 1 <= m -> k <= m -> ob_valid c n (S m) o -> ob_valid c n m o1 -> kf_valid c n f -> closure_ok c N (S m) n h -> closure_ok c N m n h1 ->
  leaves_out n m k o o1 ->
  (forall out out1, h (kf_x f) (ob_y o) = Ok out -> h1 (kf_x f) (ob_y o1) = Ok out1 -> forall i, i < m -> cell 1 out1 i 0 = cell 1 out (skip k i) 0) ->
  cell (S m) (ob_R o) k k = Some oo ->
  correct_nonlinear c N n (S m) h o f = Ok (o', f') -> correct_nonlinear c N n m h1 o1 f = Ok (o1', f1') -> decomposed N n m o1 o1' f ->
  all_cells n 1 float_finite (kf_x f') -> all_cells n n float_finite (kf_P f') ->
  same_vector float_same n (kf_x f') (kf_x f1') /\ same_cells n (kf_P f') (kf_P f1') /\ switched_off n (S m) k o'.
Proof.
  intros Hn Hm Hk Vo Vo1 Vf Hh Hh1 LO LX Rk E E1 DE Fx FP. assert (Hm' : 1 <= S m) by lia.
  pose proof (correct_nonlinear_wp c N n (S m) h o f Hn Hm' Vo Vf Hh) as W. rewrite E in W.
  destruct (correct_nl_bits' _ c N n (S m) h o o' f f' Hn Hm' Vo Vf (closure_out c prec emax sz (S m) n h (kf_x f) (ob_y o) Hh ltac:(apply Vf) ltac:(apply Vo)) E) as [(out & Eh & Y) U].
  destruct (correct_nl_bits' _ c N n m h1 o1 o1' f f1' Hn Hm Vo1 Vf (closure_out c prec emax sz m n h1 (kf_x f) (ob_y o1) Hh1 ltac:(apply Vf) ltac:(apply Vo1)) E1) as [(out1 & Eh1 & Y1) U1].
  apply (two_reduced n m k o o' o1 o1' f f' f1' Hn Hk); auto; [apply W|].
  intros i Hi. pose proof (skip_bound k i m Hi). rewrite Y, Y1 by lia. destruct LO as (LH & LZ & _). rewrite LZ by lia. rewrite (LX out out1 Eh Eh1 i Hi). apply osame_refl.
Qed.
End Calls.
