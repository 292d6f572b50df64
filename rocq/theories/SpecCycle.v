(** * Specification: repeating the same cycle of calls (C74, C75).  Nothing here refers to the model's functions. *)
From Verif Require Import Spec SpecExact SpecHistory SpecWorld.
From mathcomp Require Import all_ssreflect all_algebra.
Set Implicit Arguments.
Unset Strict Implicit.
Unset Printing Implicit Defensive.
Import GRing.Theory.
Local Open Scope ring_scope.

Section SpecCycle.
Variable R : rcfType.
Variable n : nat.
(** the call with its data (states, inputs, measurements, nonlinear functions) erased; [None] for a write to a matrix *)
Definition skeleton (t : top R n) : option (top R n) :=
  match t with
  | TPredict => Some TPredict
  | TTuned l => Some (TTuned l)
  | TPredictNl _ => Some (TPredictNl id)
  | TTunedNl l _ => Some (TTunedNl l id)
  | TControl i => Some (TControl i)
  | TCorrect j => Some (TCorrect j)
  | TCorrectNl j _ => Some (TCorrectNl j (fun m _ => 0))
  | TSetX _ => Some (TSetX 0)
  | TSetU i _ => Some (TSetU i (fun m => 0))
  | TSetZ j _ => Some (TSetZ j (fun m => 0))
  | TSetA _ | TSetP _ | TSetQ _ | TSetB _ _ | TSetCQ _ _ | TSetH _ _ | TSetR _ _ => None
  end.
(** two cycles making the same calls, with whatever data *)
Definition same_calls (ts1 ts2 : seq (top R n)) : Prop := List.Forall2 (fun t1 t2 => skeleton t1 <> None /\ skeleton t1 = skeleton t2) ts1 ts2.
(** tuning factors are not zero *)
Definition no_zero_factor (t : top R n) : Prop := match t with TTuned l | TTunedNl l _ => l <> 0 | _ => True end.
End SpecCycle.
