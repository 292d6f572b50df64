(** * Specification: two systems that have nothing to do with each other, run in one filter (C91).

    Nothing here refers to the model's functions. *)
From Verif Require Import Spec SpecExact SpecHistory.
From mathcomp Require Import all_ssreflect all_algebra.
Set Implicit Arguments.
Unset Strict Implicit.
Unset Printing Implicit Defensive.
Import Order.TTheory GRing.Theory Num.Theory.
Local Open Scope ring_scope.

Section SpecJoin.
Variable R : rcfType.
Variables n1 n2 : nat.

(** block diagonal *)
Definition diag2 (M1 : 'M[R]_n1) (M2 : 'M[R]_n2) : 'M[R]_(n1 + n2) := block_mx M1 0 0 M2.
(** a control / an observation of one system only, as one of the whole *)
Definition ctl_1 (k : tctl R n1) : tctl R (n1 + n2) := let: TCtl m B u Qc := k in TCtl (col_mx B 0) u Qc.
Definition ctl_2 (k : tctl R n2) : tctl R (n1 + n2) := let: TCtl m B u Qc := k in TCtl (col_mx 0 B) u Qc.
Definition obs_1 (o : tobs R n1) : tobs R (n1 + n2) := let: TObs m H z Rm := o in TObs (row_mx H 0) z Rm.
Definition obs_2 (o : tobs R n2) : tobs R (n1 + n2) := let: TObs m H z Rm := o in TObs (row_mx 0 H) z Rm.
(** both systems as one: first the controls and observations of the first, then those of the second *)
Definition join_est (s1 : est R n1) (s2 : est R n2) : est R (n1 + n2) := Est (col_mx (e_x s1) (e_x s2)) (diag2 (e_P s1) (e_P s2)).
Definition join (w1 : tworld R n1) (w2 : tworld R n2) : tworld R (n1 + n2) :=
  TW (diag2 (tw_A w1) (tw_A w2)) (diag2 (tw_Q w1) (tw_Q w2)) (join_est (tw_s w1) (tw_s w2))
     (List.map ctl_1 (tw_ct w1) ++ List.map ctl_2 (tw_ct w2)) (List.map obs_1 (tw_ob w1) ++ List.map obs_2 (tw_ob w2)).

(** what a program does: predictions concern both, all else one of them *)
Inductive jop : Type :=
| JPredict | JTuned (lam : R)
| JPredictNl (F1 : 'cV[R]_n1 -> 'cV[R]_n1) (F2 : 'cV[R]_n2 -> 'cV[R]_n2)
| JTunedNl (lam : R) (F1 : 'cV[R]_n1 -> 'cV[R]_n1) (F2 : 'cV[R]_n2 -> 'cV[R]_n2)
| JOne (t : top R n1) | JTwo (t : top R n2).

(** the operations of each filter when there are two *)
Definition ops_1 (j : jop) : seq (top R n1) :=
  match j with
  | JPredict => [:: TPredict] | JTuned lam => [:: TTuned lam]
  | JPredictNl F1 F2 => [:: TPredictNl F1] | JTunedNl lam F1 F2 => [:: TTunedNl lam F1]
  | JOne t => [:: t] | JTwo t => [::]
  end.
Definition ops_2 (j : jop) : seq (top R n2) :=
  match j with
  | JPredict => [:: TPredict] | JTuned lam => [:: TTuned lam]
  | JPredictNl F1 F2 => [:: TPredictNl F2] | JTunedNl lam F1 F2 => [:: TTunedNl lam F2]
  | JOne t => [::] | JTwo t => [:: t]
  end.

(** not a prediction, and it refers to a control / an observation there is *)
Definition single n (w : tworld R n) (t : top R n) : bool :=
  match t with
  | TPredict | TTuned _ | TPredictNl _ | TTunedNl _ _ => false
  | TControl i | TSetB i _ | TSetU i _ | TSetCQ i _ => (i < size (tw_ct w))%N
  | TCorrect j | TCorrectNl j _ | TSetH j _ | TSetZ j _ | TSetR j _ => (j < size (tw_ob w))%N
  | _ => true
  end.

Definition both (F1 : 'cV[R]_n1 -> 'cV[R]_n1) (F2 : 'cV[R]_n2 -> 'cV[R]_n2) (x : 'cV[R]_(n1 + n2)) : 'cV[R]_(n1 + n2) :=
  col_mx (F1 (usubmx x)) (F2 (dsubmx x)).
(** the operation of the common filter *)
Definition joint_op (w1 : tworld R n1) (w2 : tworld R n2) (j : jop) : top R (n1 + n2) :=
  let k := size (tw_ct w1) in let o := size (tw_ob w1) in
  match j with
  | JPredict => TPredict | JTuned lam => TTuned lam
  | JPredictNl F1 F2 => TPredictNl (both F1 F2) | JTunedNl lam F1 F2 => TTunedNl lam (both F1 F2)
  | JOne t =>
      match t with
      | TControl i => TControl i | TCorrect j => TCorrect j
      | TCorrectNl j F => TCorrectNl j (fun m x => F m (usubmx x))
      | TSetA M => TSetA (diag2 M (tw_A w2)) | TSetQ M => TSetQ (diag2 M (tw_Q w2))
      | TSetX v => TSetX (col_mx v (e_x (tw_s w2))) | TSetP M => TSetP (diag2 M (e_P (tw_s w2)))
      | TSetB i M => TSetB i (fun m => col_mx (M m) 0) | TSetU i v => TSetU i v | TSetCQ i M => TSetCQ i M
      | TSetH j M => TSetH j (fun m => row_mx (M m) 0) | TSetZ j v => TSetZ j v | TSetR j M => TSetR j M
      | _ => TPredict (* excluded by [single] *)
      end
  | JTwo t =>
      match t with
      | TControl i => TControl (k + i) | TCorrect j => TCorrect (o + j)
      | TCorrectNl j F => TCorrectNl (o + j) (fun m x => F m (dsubmx x))
      | TSetA M => TSetA (diag2 (tw_A w1) M) | TSetQ M => TSetQ (diag2 (tw_Q w1) M)
      | TSetX v => TSetX (col_mx (e_x (tw_s w1)) v) | TSetP M => TSetP (diag2 (e_P (tw_s w1)) M)
      | TSetB i M => TSetB (k + i) (fun m => col_mx 0 (M m)) | TSetU i v => TSetU (k + i) v | TSetCQ i M => TSetCQ (k + i) M
      | TSetH j M => TSetH (o + j) (fun m => row_mx 0 (M m)) | TSetZ j v => TSetZ (o + j) v | TSetR j M => TSetR (o + j) M
      | _ => TPredict
      end
  end.
Definition jop_ok (w1 : tworld R n1) (w2 : tworld R n2) (j : jop) : Prop :=
  match j with JOne t => single w1 t | JTwo t => single w2 t | _ => true end.

(** along a history *)
Definition all_1 (js : seq jop) : seq (top R n1) := flatten (map ops_1 js).
Definition all_2 (js : seq jop) : seq (top R n2) := flatten (map ops_2 js).
Fixpoint joint_ops (w1 : tworld R n1) (w2 : tworld R n2) (js : seq jop) : seq (top R (n1 + n2)) :=
  match js with [::] => [::] | j :: js => joint_op w1 w2 j :: joint_ops (trun w1 (ops_1 j)) (trun w2 (ops_2 j)) js end.
Fixpoint jops_ok (w1 : tworld R n1) (w2 : tworld R n2) (js : seq jop) : Prop :=
  match js with [::] => True | j :: js => jop_ok w1 w2 j /\ jops_ok (trun w1 (ops_1 j)) (trun w2 (ops_2 j)) js end.
End SpecJoin.
Arguments JPredict {R n1 n2}.
Arguments JTuned {R n1 n2}.
Arguments JOne {R n1 n2}.
Arguments JTwo {R n1 n2}.
