(** * Specification: histories.  Textbook filter run on a list of operations, and what it means for a program
      of API calls to denote a list of textbook operations. *)
From Verif Require Import Spec SpecFilter History SpecGen SpecExact.
From mathcomp Require Import all_ssreflect all_algebra.
Set Implicit Arguments.
Unset Strict Implicit.
Unset Printing Implicit Defensive.
Import Order.TTheory GRing.Theory Num.Theory.
Local Open Scope ring_scope.

Section SpecHistory.
Variable R : rcfType.

(** a filter's (x, P) *)
Definition kf_est (n : nat) (f : kalman R) : est R n := Est (mx n 1 (kf_x f)) (mx n n (kf_P f)).

(** a closure for the extended filter which computes the function [F] *)
Definition computes (c : cfg) (m n : nat) (F : 'cV[R]_n -> 'cV[R]_m) (h : seq R -> seq R -> res (seq R)) : Prop :=
  forall x out, valid c n 1 x -> valid c m 1 out ->
    exists out', h x out = Ok out' /\ valid c m 1 out' /\ mx m 1 out' = F (mx n 1 x).

Section Textbook.
Variable n : nat.

(** textbook controls and observations of any dimension m *)
Inductive tctl : Type := TCtl (m : nat) (B : 'M[R]_(n, m)) (u : 'cV[R]_m) (Qc : 'M[R]_m).
Inductive tobs : Type := TObs (m : nat) (H : 'M[R]_(m, n)) (z : 'cV[R]_m) (Rm : 'M[R]_m).
Record tworld : Type := TW { tw_A : 'M[R]_n; tw_Q : 'M[R]_n; tw_s : est R n; tw_ct : seq tctl; tw_ob : seq tobs }.

Inductive top : Type :=
| TPredict
| TTuned (lam : R)
| TPredictNl (F : 'cV[R]_n -> 'cV[R]_n)
| TTunedNl (lam : R) (F : 'cV[R]_n -> 'cV[R]_n)
| TControl (i : nat)
| TCorrect (j : nat)
| TCorrectNl (j : nat) (F : forall m, 'cV[R]_n -> 'cV[R]_m)
| TSetA (M : 'M[R]_n) | TSetX (v : 'cV[R]_n) | TSetP (M : 'M[R]_n) | TSetQ (M : 'M[R]_n)
| TSetB (i : nat) (M : forall m, 'M[R]_(n, m)) | TSetU (i : nat) (v : forall m, 'cV[R]_m) | TSetCQ (i : nat) (M : forall m, 'M[R]_m)
| TSetH (j : nat) (M : forall m, 'M[R]_(m, n)) | TSetZ (j : nat) (v : forall m, 'cV[R]_m) | TSetR (j : nat) (M : forall m, 'M[R]_m).

(** apply [g] to the i-th element *)
Fixpoint alter {A} (g : A -> A) (i : nat) (l : seq A) : seq A :=
  match l, i with [::], _ => [::] | a :: l', 0%N => g a :: l' | a :: l', i'.+1 => a :: alter g i' l' end.

Definition tw_est (w : tworld) (s : est R n) : tworld := TW (tw_A w) (tw_Q w) s (tw_ct w) (tw_ob w).

Definition do_control (k : tctl) (s : est R n) : est R n := let: TCtl m B u Qc := k in t_control B u Qc s.
Definition do_correct (o : tobs) (s : est R n) : est R n := let: TObs m H z Rm := o in t_correct H Rm z s.
Definition do_correct_nl (F : forall m, 'cV[R]_n -> 'cV[R]_m) (o : tobs) (s : est R n) : est R n :=
  let: TObs m H z Rm := o in t_update H Rm (z - F m (e_x s)) s.

Definition tstep (w : tworld) (o : top) : tworld :=
  let s := tw_s w in
  match o with
  | TPredict => tw_est w (t_predict (tw_A w) (tw_Q w) s)
  | TTuned lam => tw_est w (t_predict_tuned lam (tw_A w) (tw_Q w) s)
  | TPredictNl F => tw_est w (Est (F (e_x s)) (e_P (t_predict (tw_A w) (tw_Q w) s)))
  | TTunedNl lam F => tw_est w (Est (F (e_x s)) (e_P (t_predict_tuned lam (tw_A w) (tw_Q w) s)))
  | TControl i => tw_est w (if nth_error (tw_ct w) i is Some k then do_control k s else s)
  | TCorrect j => tw_est w (if nth_error (tw_ob w) j is Some b then do_correct b s else s)
  | TCorrectNl j F => tw_est w (if nth_error (tw_ob w) j is Some b then do_correct_nl F b s else s)
  | TSetA M => TW M (tw_Q w) s (tw_ct w) (tw_ob w)
  | TSetX v => tw_est w (Est v (e_P s))
  | TSetP M => tw_est w (Est (e_x s) M)
  | TSetQ M => TW (tw_A w) M s (tw_ct w) (tw_ob w)
  | TSetB i M => TW (tw_A w) (tw_Q w) s (alter (fun k => let: TCtl m B u Qc := k in TCtl (M m) u Qc) i (tw_ct w)) (tw_ob w)
  | TSetU i v => TW (tw_A w) (tw_Q w) s (alter (fun k => let: TCtl m B u Qc := k in TCtl B (v m) Qc) i (tw_ct w)) (tw_ob w)
  | TSetCQ i M => TW (tw_A w) (tw_Q w) s (alter (fun k => let: TCtl m B u Qc := k in TCtl B u (M m)) i (tw_ct w)) (tw_ob w)
  | TSetH j M => TW (tw_A w) (tw_Q w) s (tw_ct w) (alter (fun o => let: TObs m H z Rm := o in TObs (M m) z Rm) j (tw_ob w))
  | TSetZ j v => TW (tw_A w) (tw_Q w) s (tw_ct w) (alter (fun o => let: TObs m H z Rm := o in TObs H (v m) Rm) j (tw_ob w))
  | TSetR j M => TW (tw_A w) (tw_Q w) s (tw_ct w) (alter (fun o => let: TObs m H z Rm := o in TObs H z (M m)) j (tw_ob w))
  end.

Definition trun (w : tworld) (os : seq top) : tworld := foldl tstep w os.

(** the innovation covariance of an observation is positive definite (and it has a component at all) *)
Definition S_ok (P : 'M[R]_n) (o : tobs) : Prop := let: TObs m H z Rm := o in (0 < m)%N /\ pd (t_S H Rm P).

(** preconditions of one operation, of a history *)
Definition op_ok (w : tworld) (o : top) : Prop :=
  match o with
  | TTuned lam | TTunedNl lam _ => lam != 0
  | TCorrect j | TCorrectNl j _ => if nth_error (tw_ob w) j is Some b then S_ok (e_P (tw_s w)) b else True
  | _ => True
  end.
Fixpoint ops_ok (w : tworld) (os : seq top) : Prop :=
  match os with [::] => True | o :: os => op_ok w o /\ ops_ok (tstep w o) os end.

End Textbook.

(** ** reading a program *)
Variables (c : cfg) (n : nat).

Definition ctl_abs (v : nat * control R) : tctl n := let: (m, k) := v in TCtl (mx n m (ct_B k)) (mx m 1 (ct_u k)) (mx m m (ct_Q k)).
Definition obs_abs (v : nat * observation R) : tobs n := let: (m, b) := v in TObs (mx m n (ob_H b)) (mx m 1 (ob_z b)) (mx m m (ob_R b)).
(** the textbook state a program's world stands for *)
Definition world_abs (w : world R) : tworld n :=
  TW (mx n n (kf_A (w_kf w))) (mx n n (kf_Q (w_kf w))) (kf_est n (w_kf w))
     (List.map ctl_abs (w_ct w)) (List.map obs_abs (w_ob w)).

(** the textbook operation a call stands for; [w] only fixes the dimensions of the objects *)
Definition denotes (w : world R) (o : op R) (t : top n) : Prop :=
  let dim_ct i (Q : nat -> Prop) := if nth_error (ct_dims w) i is Some m then Q m else True in
  let dim_ob j (Q : nat -> Prop) := if nth_error (ob_dims w) j is Some m then Q m else True in
  match o, t with
  | OPredict, TPredict => True
  | OPredictTuned l, TTuned l' => l = l'
  | OPredictNonlinear h, TPredictNl F => computes c F h
  | OPredictTunedNonlinear l h, TTunedNl l' F => l = l' /\ computes c F h
  | OControl i, TControl i' => i = i'
  | OCorrect j, TCorrect j' => j = j'
  | OCorrectNonlinear j h, TCorrectNl j' F => j = j' /\ dim_ob j (fun m => computes c (F m) h)
  | OSetA l, TSetA M => (n * n <= length l)%N /\ M = mx n n l
  | OSetX l, TSetX v => (n * 1 <= length l)%N /\ v = mx n 1 l
  | OSetP l, TSetP M => (n * n <= length l)%N /\ M = mx n n l
  | OSetQ l, TSetQ M => (n * n <= length l)%N /\ M = mx n n l
  | OSetB i l, TSetB i' M => i = i' /\ dim_ct i (fun m => (n * m <= length l)%N /\ M m = mx n m l)
  | OSetU i l, TSetU i' v => i = i' /\ dim_ct i (fun m => (m * 1 <= length l)%N /\ v m = mx m 1 l)
  | OSetCQ i l, TSetCQ i' M => i = i' /\ dim_ct i (fun m => (m * m <= length l)%N /\ M m = mx m m l)
  | OSetH j l, TSetH j' M => j = j' /\ dim_ob j (fun m => (m * n <= length l)%N /\ M m = mx m n l)
  | OSetZ j l, TSetZ j' v => j = j' /\ dim_ob j (fun m => (m * 1 <= length l)%N /\ v m = mx m 1 l)
  | OSetR j l, TSetR j' M => j = j' /\ dim_ob j (fun m => (m * m <= length l)%N /\ M m = mx m m l)
  | _, _ => False
  end.

End SpecHistory.
Arguments TPredict {R n}.
Arguments TTuned {R n}.
Arguments TControl {R n}.
Arguments TCorrect {R n}.
Arguments TSetU {R n}.
Arguments TSetCQ {R n}.
Arguments TSetZ {R n}.
Arguments TSetR {R n}.
