(** * Specification: statements about whole textbook histories (used for C24, C28, C41-C43 and later ones).

    Nothing here refers to the model's functions. *)
From Verif Require Import Spec SpecExact SpecHistory.
From mathcomp Require Import all_ssreflect all_algebra.
Set Implicit Arguments.
Unset Strict Implicit.
Unset Printing Implicit Defensive.
Import Order.TTheory GRing.Theory Num.Theory.
Local Open Scope ring_scope.

Section SpecWorld.
Variable R : rcfType.
Variable n : nat.
Implicit Types (w : tworld R n) (t : top R n) (s : est R n).

(** ** sane noise models: P, Q and the control noise are semi-definite, measurement noise is definite *)
Definition ctl_good (k : tctl R n) : Prop := let: TCtl m B u Qc := k in psd Qc.
Definition obs_good (o : tobs R n) : Prop := let: TObs m H z Rm := o in (0 < m)%N /\ pd Rm.
Definition tw_good w : Prop :=
  psd (e_P (tw_s w)) /\ psd (tw_Q w) /\ List.Forall ctl_good (tw_ct w) /\ List.Forall obs_good (tw_ob w).
(** dimension of the i-th control / j-th observation *)
Definition ctl_dim (k : tctl R n) : nat := let: TCtl m B u Qc := k in m.
Definition obs_dim (o : tobs R n) : nat := let: TObs m H z Rm := o in m.
(** operations which keep them sane *)
Definition op_good w t : Prop :=
  match t with
  | TTuned lam | TTunedNl lam _ => lam != 0
  | TSetP M | TSetQ M => psd M
  | TSetCQ i M => if nth_error (tw_ct w) i is Some k then psd (M (ctl_dim k)) else True
  | TSetR j M => if nth_error (tw_ob w) j is Some o then pd (M (obs_dim o)) else True
  | _ => True
  end.
Fixpoint ops_good w (ts : seq (top R n)) : Prop :=
  match ts with [::] => True | t :: ts => op_good w t /\ ops_good (tstep w t) ts end.

(** ** order: the same system with less noise everywhere (states, measurements and inputs are free) *)
Inductive ctl_le : tctl R n -> tctl R n -> Prop :=
| CtlLe m (B : 'M[R]_(n, m)) u1 u2 Q1 Q2 : lemx Q1 Q2 -> ctl_le (TCtl B u1 Q1) (TCtl B u2 Q2).
Inductive obs_le : tobs R n -> tobs R n -> Prop :=
| ObsLe m (H : 'M[R]_(m, n)) z1 z2 R1 R2 : lemx R1 R2 -> obs_le (TObs H z1 R1) (TObs H z2 R2).
Definition tw_le (w1 w2 : tworld R n) : Prop :=
  tw_A w1 = tw_A w2 /\ lemx (tw_Q w1) (tw_Q w2) /\ lemx (e_P (tw_s w1)) (e_P (tw_s w2)) /\
  List.Forall2 ctl_le (tw_ct w1) (tw_ct w2) /\ List.Forall2 obs_le (tw_ob w1) (tw_ob w2).
Definition top_le w (t1 t2 : top R n) : Prop :=
  match t1, t2 with
  | TSetX _, TSetX _ => True
  | TPredictNl _, TPredictNl _ => True
  | TTunedNl l _, TTunedNl l' _ => l = l'
  | TCorrectNl j _, TCorrectNl j' _ => j = j'
  | TSetU i _, TSetU i' _ => i = i'
  | TSetZ j _, TSetZ j' _ => j = j'
  | TSetP M, TSetP M' | TSetQ M, TSetQ M' => lemx M M'
  | TSetCQ i M, TSetCQ i' M' => i = i' /\ (if nth_error (tw_ct w) i is Some k then lemx (M (ctl_dim k)) (M' (ctl_dim k)) else True)
  | TSetR j M, TSetR j' M' => j = j' /\ (if nth_error (tw_ob w) j is Some o then lemx (M (obs_dim o)) (M' (obs_dim o)) else True)
  | _, _ => t1 = t2
  end.
Fixpoint tops_le w (ts1 ts2 : seq (top R n)) : Prop :=
  match ts1, ts2 with
  | [::], [::] => True
  | t1 :: ts1, t2 :: ts2 => top_le w t1 t2 /\ tops_le (tstep w t1) ts1 ts2
  | _, _ => False
  end.

(** ** change of coordinates x~ = T x *)
Section Coord.
Variable T : 'M[R]_n.
Definition est_coord s : est R n := Est (T *m e_x s) (T *m e_P s *m T^T).
Definition ctl_coord (k : tctl R n) : tctl R n := let: TCtl m B u Qc := k in TCtl (T *m B) u Qc.
Definition obs_coord (o : tobs R n) : tobs R n := let: TObs m H z Rm := o in TObs (H *m invmx T) z Rm.
Definition tw_coord w : tworld R n :=
  TW (T *m tw_A w *m invmx T) (T *m tw_Q w *m T^T) (est_coord (tw_s w))
     (List.map ctl_coord (tw_ct w)) (List.map obs_coord (tw_ob w)).
Definition op_coord t : top R n :=
  match t with
  | TPredictNl F => TPredictNl (fun x => T *m F (invmx T *m x))
  | TTunedNl lam F => TTunedNl lam (fun x => T *m F (invmx T *m x))
  | TCorrectNl j F => TCorrectNl j (fun m x => F m (invmx T *m x))
  | TSetA M => TSetA (T *m M *m invmx T)
  | TSetX v => TSetX (T *m v)
  | TSetP M => TSetP (T *m M *m T^T)
  | TSetQ M => TSetQ (T *m M *m T^T)
  | TSetB i M => TSetB i (fun m => T *m M m)
  | TSetH j M => TSetH j (fun m => M m *m invmx T)
  | _ => t
  end.
End Coord.

(** ** all covariances multiplied by a *)
Section Scale.
Variable a : R.
Definition ctl_scale (k : tctl R n) : tctl R n := let: TCtl m B u Qc := k in TCtl B u (a *: Qc).
Definition obs_scale (o : tobs R n) : tobs R n := let: TObs m H z Rm := o in TObs H z (a *: Rm).
Definition tw_scale w : tworld R n :=
  TW (tw_A w) (a *: tw_Q w) (Est (e_x (tw_s w)) (a *: e_P (tw_s w)))
     (List.map ctl_scale (tw_ct w)) (List.map obs_scale (tw_ob w)).
Definition op_scale t : top R n :=
  match t with
  | TSetP M => TSetP (a *: M)
  | TSetQ M => TSetQ (a *: M)
  | TSetCQ i M => TSetCQ i (fun m => a *: M m)
  | TSetR j M => TSetR j (fun m => a *: M m)
  | _ => t
  end.
End Scale.

(** ** superposition: three runs with the same covariances and the data of the third a combination of the others *)
Section Lin.
Variables a b : R.
Inductive ctl_lin : tctl R n -> tctl R n -> tctl R n -> Prop :=
| CtlLin m (B : 'M[R]_(n, m)) u1 u2 Qc : ctl_lin (TCtl B u1 Qc) (TCtl B u2 Qc) (TCtl B (a *: u1 + b *: u2) Qc).
Inductive obs_lin : tobs R n -> tobs R n -> tobs R n -> Prop :=
| ObsLin m (H : 'M[R]_(m, n)) z1 z2 Rm : obs_lin (TObs H z1 Rm) (TObs H z2 Rm) (TObs H (a *: z1 + b *: z2) Rm).
Inductive all3 {A} (P : A -> A -> A -> Prop) : seq A -> seq A -> seq A -> Prop :=
| All3nil : all3 P [::] [::] [::]
| All3cons x y z l1 l2 l3 : P x y z -> all3 P l1 l2 l3 -> all3 P (x :: l1) (y :: l2) (z :: l3).
Definition tw_lin (w1 w2 w3 : tworld R n) : Prop :=
  tw_A w1 = tw_A w3 /\ tw_A w2 = tw_A w3 /\ tw_Q w1 = tw_Q w3 /\ tw_Q w2 = tw_Q w3 /\
  e_P (tw_s w1) = e_P (tw_s w3) /\ e_P (tw_s w2) = e_P (tw_s w3) /\
  e_x (tw_s w3) = a *: e_x (tw_s w1) + b *: e_x (tw_s w2) /\
  all3 ctl_lin (tw_ct w1) (tw_ct w2) (tw_ct w3) /\ all3 obs_lin (tw_ob w1) (tw_ob w2) (tw_ob w3).
(** the same linear call; only states, inputs and measurements are combined *)
Definition top_lin w (t1 t2 t3 : top R n) : Prop :=
  match t1, t2, t3 with
  | TSetX v1, TSetX v2, TSetX v3 => v3 = a *: v1 + b *: v2
  | TSetU i1 v1, TSetU i2 v2, TSetU i3 v3 => i1 = i3 /\ i2 = i3 /\
      (if nth_error (tw_ct w) i3 is Some k then let m := ctl_dim k in v3 m = a *: v1 m + b *: v2 m else True)
  | TSetZ i1 v1, TSetZ i2 v2, TSetZ i3 v3 => i1 = i3 /\ i2 = i3 /\
      (if nth_error (tw_ob w) i3 is Some o then let m := obs_dim o in v3 m = a *: v1 m + b *: v2 m else True)
  | TPredictNl _, _, _ | TTunedNl _ _, _, _ | TCorrectNl _ _, _, _ => False
  | _, _, _ => t1 = t3 /\ t2 = t3
  end.
Fixpoint tops_lin w (ts1 ts2 ts3 : seq (top R n)) : Prop :=
  match ts1, ts2, ts3 with
  | [::], [::], [::] => True
  | t1 :: ts1, t2 :: ts2, t3 :: ts3 => top_lin w t1 t2 t3 /\ tops_lin (tstep w t3) ts1 ts2 ts3
  | _, _, _ => False
  end.
End Lin.

(** ** the truth the filter estimates *)
(** where the true state goes during one call: the true system follows the model with process noise [v]; writing to
    the filter's matrices does not move it *)
Definition truth_step w (xt v : 'cV[R]_n) t : 'cV[R]_n :=
  match t with
  | TPredict | TTuned _ => tw_A w *m xt + v
  | TPredictNl F | TTunedNl _ F => F xt + v
  | TControl i => if nth_error (tw_ct w) i is Some (TCtl m B u Qc) then xt + B *m u + v else xt
  | _ => xt
  end.
(** how the estimation error e = x - xt evolves: measurement noise is z - H xt *)
Definition err_step w (xt v : 'cV[R]_n) t (e : 'cV[R]_n) : 'cV[R]_n :=
  match t with
  | TPredict | TTuned _ => tw_A w *m e - v
  | TPredictNl F | TTunedNl _ F => F (xt + e) - F xt - v
  | TControl i => if nth_error (tw_ct w) i is Some _ then e - v else e
  | TCorrect j =>
      if nth_error (tw_ob w) j is Some (TObs m H z Rm) then
        let K := t_K H Rm (e_P (tw_s w)) in (1%:M - K *m H) *m e + K *m (z - H *m xt)
      else e
  | TCorrectNl j F =>
      if nth_error (tw_ob w) j is Some (TObs m H z Rm) then
        e + t_K H Rm (e_P (tw_s w)) *m (z - F m (xt + e))
      else e
  | TSetX x => x - xt
  | _ => e
  end.
(** a whole history: the calls, each with its process noise *)
Fixpoint truth_run w (xt : 'cV[R]_n) (ts : seq (top R n * 'cV[R]_n)) : 'cV[R]_n :=
  match ts with [::] => xt | (t, v) :: ts => truth_run (tstep w t) (truth_step w xt v t) ts end.
Fixpoint err_run w (xt : 'cV[R]_n) (ts : seq (top R n * 'cV[R]_n)) (e : 'cV[R]_n) : 'cV[R]_n :=
  match ts with
  | [::] => e
  | (t, v) :: ts => err_run (tstep w t) (truth_step w xt v t) ts (err_step w xt v t e)
  end.
(** nothing is noisy: no process noise, measurements are those of the true state, the state is not overwritten
    by something else *)
Definition noise_free_step w (xt v : 'cV[R]_n) t : Prop :=
  v = 0 /\
  match t with
  | TCorrect j => if nth_error (tw_ob w) j is Some (TObs m H z Rm) then z = H *m xt else True
  | TCorrectNl j F => if nth_error (tw_ob w) j is Some (TObs m H z Rm) then z = F m xt else True
  | TSetX x => x = xt
  | _ => True
  end.
Fixpoint noise_free w (xt : 'cV[R]_n) (ts : seq (top R n * 'cV[R]_n)) : Prop :=
  match ts with
  | [::] => True
  | (t, v) :: ts => noise_free_step w xt v t /\ noise_free (tstep w t) (truth_step w xt v t) ts
  end.

End SpecWorld.
