(** * Specification: a filter following a random system.

    A random system is simulated alongside the filter: at each step noise is drawn from a finite distribution, the true state moves,
    measurements are taken and the filter is called.  Everything that can happen is listed with its probability; expectations are sums over
    that list.  Nothing here refers to the model's functions. *)
From Verif Require Import Spec SpecExact SpecHistory SpecWorld.
From mathcomp Require Import all_ssreflect all_algebra.
Set Implicit Arguments.
Unset Strict Implicit.
Unset Printing Implicit Defensive.
Import Order.TTheory GRing.Theory Num.Theory.
Local Open Scope ring_scope.

Section SpecProb.
Variable R : rcfType.
Variable n : nat.

(** a finite distribution: outcomes with their probabilities; the expectation of [f] *)
Definition dist (A : Type) : Type := seq (R * A).
Definition expect (A : Type) (k l : nat) (D : dist A) (f : A -> 'M[R]_(k, l)) : 'M[R]_(k, l) := \sum_(o <- D) o.1 *: f o.2.
Definition mass (A : Type) (D : dist A) : R := \sum_(o <- D) o.1.

(** a noise vector, of whatever dimension it is needed in *)
Definition noise : Type := forall m : nat, 'cV[R]_m.
(** probabilities add up to one, zero mean, covariance C *)
Definition centred (m : nat) (D : dist noise) (C : 'M[R]_m) : Prop :=
  mass D = 1 /\ expect D (fun v => v m) = 0 /\ expect D (fun v => v m *m (v m)^T) = C.

(** one step of the simulation *)
Inductive sop : Type :=
| SPredict (D : dist noise)              (* the true state becomes A x + v; the program calls predict *)
| STuned (lam : R) (D : dist noise)      (* the same, but the program calls predict_tuned *)
| SControl (i : nat) (D : dist noise)    (* the true state becomes x + B (u + v); the program calls control *)
| SMeasure (j : nat) (D : dist noise)    (* z = H x + v is measured; the program writes z and calls correct *)
| SInput (i : nat) (g : est R n -> noise) (* the program chooses the input u, knowing the filter's estimate *)
| SSet (t : top R n).                    (* the program writes a matrix *)

Definition no_noise : noise := fun m => 0.
Definition sdist (s : sop) : dist noise :=
  match s with SPredict D | STuned _ D | SControl _ D | SMeasure _ D => D | _ => [:: (1, no_noise)] end.

(** the calls made and the new true state, when [v] is drawn *)
Definition sdo (w : tworld R n) (xt : 'cV[R]_n) (s : sop) (v : noise) : seq (top R n) * 'cV[R]_n :=
  match s with
  | SPredict _ => ([:: TPredict], tw_A w *m xt + v n)
  | STuned lam _ => ([:: TTuned lam], tw_A w *m xt + v n)
  | SControl i _ => ([:: TControl i], if nth_error (tw_ct w) i is Some (TCtl m B u Qc) then xt + B *m (u + v m) else xt)
  | SMeasure j _ =>
      ((if nth_error (tw_ob w) j is Some (TObs m H z Rm) then [:: TSetZ j (fun m' => conform_mx 0 (H *m xt + v m)); TCorrect j] else [::]), xt)
  | SInput i g => ([:: TSetU i (g (tw_s w))], xt)
  | SSet t => ([:: t], xt)
  end.

(** all outcomes: the calls made and the final true state *)
Fixpoint sim (w : tworld R n) (xt : 'cV[R]_n) (ss : seq sop) : dist (seq (top R n) * 'cV[R]_n) :=
  match ss with
  | [::] => [:: (1, ([::], xt))]
  | s :: ss =>
      flatten [seq (let: (ts, xt') := sdo w xt s v.2 in
                    [seq (v.1 * o.1, (ts ++ o.2.1, o.2.2)) | o <- sim (trun w ts) xt' ss]) | v <- sdist s]
  end.
(** starting from a random true state *)
Definition sim_from (w : tworld R n) (D0 : dist 'cV[R]_n) (ss : seq sop) : dist (seq (top R n) * 'cV[R]_n) :=
  flatten [seq [seq (x.1 * o.1, o.2) | o <- sim w x.2 ss] | x <- D0].

(** a simulation in two parts: what happened in the first, and then in the second *)
Definition sim_two (w : tworld R n) (D0 : dist 'cV[R]_n) (ss1 ss2 : seq sop) :
    dist ((seq (top R n) * 'cV[R]_n) * (seq (top R n) * 'cV[R]_n)) :=
  flatten [seq [seq (r.1 * o.1, (r.2, o.2)) | o <- sim (trun w r.2.1) r.2.2 ss2] | r <- sim_from w D0 ss1].

(** the noise is what the filter has been told: covariance Q, control covariance, measurement covariance; S is positive definite when correcting *)
Definition sop_ok (w : tworld R n) (s : sop) : Prop :=
  match s with
  | SPredict D => centred D (tw_Q w)
  | STuned lam D => lam ^+ 2 = 1 /\ centred D (tw_Q w)
  | SControl i D => if nth_error (tw_ct w) i is Some (TCtl m B u Qc) then centred D Qc else mass D = 1
  | SMeasure j D => if nth_error (tw_ob w) j is Some (TObs m H z Rm) then centred D Rm /\ S_ok (e_P (tw_s w)) (TObs H z Rm) else mass D = 1
  | SInput _ _ => True
  | SSet (TSetA _) | SSet (TSetQ _) | SSet (TSetB _ _) | SSet (TSetCQ _ _) | SSet (TSetH _ _) | SSet (TSetR _ _) => True
  | SSet _ => False
  end.
(** along a run; matrices do not depend on what is drawn, so the run without noise tells *)
Fixpoint sops_ok (w : tworld R n) (ss : seq sop) : Prop :=
  match ss with
  | [::] => True
  | s :: ss => sop_ok w s /\ sops_ok (trun w (sdo w 0 s no_noise).1) ss
  end.

(** the run without noise; its matrices and covariance are those of every run *)
Fixpoint srun (w : tworld R n) (ss : seq sop) : tworld R n :=
  match ss with [::] => w | s :: ss => srun (trun w (sdo w 0 s no_noise).1) ss end.

(** the initial true state is distributed as the filter has been told: mean x, covariance P *)
Definition good_start (w : tworld R n) (D0 : dist 'cV[R]_n) : Prop :=
  mass D0 = 1 /\ expect D0 (fun xt => e_x (tw_s w) - xt) = 0 /\
  expect D0 (fun xt => (e_x (tw_s w) - xt) *m (e_x (tw_s w) - xt)^T) = e_P (tw_s w).

End SpecProb.
Arguments SPredict {R n}.
Arguments STuned {R n}.
Arguments SControl {R n}.
Arguments SMeasure {R n}.
Arguments SInput {R n}.
