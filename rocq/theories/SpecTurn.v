(** * Vocabulary: one turn (predict, then correct) of a floating-point filter, its state apart from its covariance *)
From Verif Require Export SpecRange SpecStable SpecGen.
Open Scope R_scope.

(** the state after a turn of the filter with gain K in exact arithmetic: p + K (z - H p) with p = A x *)
Definition r_predicted (n : nat) (A : nat -> nat -> R) (x : nat -> R) (i : nat) : R := rsum n (fun k => A i k * x k).
Definition r_corrected (n m : nat) (H K : nat -> nat -> R) (x z : nat -> R) (i : nat) : R := x i + rsum m (fun j => K i j * (z j - rsum n (fun l => H j l * x l))).
Definition r_turn_state (n m : nat) (A H K : nat -> nat -> R) (x z : nat -> R) (i : nat) : R := r_corrected n m H K (r_predicted n A x) z i.

Section Sizes.
Variables (prec emax : Z) (n m : nat).
Notation G k := ((1 + uro prec) ^ k).
Notation e := (eta prec emax).
(** the largest prediction possible with |x k| <= X k, its rounding error *)
Definition r_big_prediction (A : nat -> nat -> R) (X : nat -> R) (i : nat) : R := G n * (rsum n (fun k => Rabs (A i k) * X k) + INR n * e).
Definition r_pred_rounding (A : nat -> nat -> R) (X : nat -> R) (i : nat) : R := (G n - 1) * rsum n (fun k => Rabs (A i k) * X k) + INR n * G n * e.
(** the largest innovation and corrected state possible with |x k| <= X k and |z j| <= Z j before the correction, their rounding errors *)
Definition r_big_innovation (H : nat -> nat -> R) (X Zb : nat -> R) (j : nat) : R := G (n + 1) * (Zb j + rsum n (fun l => Rabs (H j l) * X l) + INR n * e).
Definition r_inn_rounding (H : nat -> nat -> R) (X Zb : nat -> R) (j : nat) : R := (G (n + 1) - 1) * (Zb j + rsum n (fun l => Rabs (H j l) * X l)) + G (n + 1) * e * INR n.
Definition r_big_correction (H K : nat -> nat -> R) (X Zb : nat -> R) (i : nat) : R := G (m + 1) * (X i + rsum m (fun j => Rabs (K i j) * r_big_innovation H X Zb j) + INR m * e).
Definition r_corr_rounding (H K : nat -> nat -> R) (X Zb : nat -> R) (i : nat) : R :=
  (G (m + 1) - 1) * (X i + rsum m (fun j => Rabs (K i j) * r_big_innovation H X Zb j)) + G (m + 1) * e * INR m + rsum m (fun j => Rabs (K i j) * r_inn_rounding H X Zb j).
(** a turn: every number fits; rounding error of the state *)
Definition r_turn_room (A H K : nat -> nat -> R) (X Zb : nat -> R) : Prop :=
  (forall i, (i < n)%nat -> r_big_prediction A X i < too_big emax) /\ (forall j, (j < m)%nat -> r_big_innovation H (r_big_prediction A X) Zb j < too_big emax) /\
  (forall i, (i < n)%nat -> r_big_correction H K (r_big_prediction A X) Zb i < too_big emax).
Definition r_turn_rounding (A H K : nat -> nat -> R) (X Zb : nat -> R) (i : nat) : R :=
  r_corr_rounding H K (r_big_prediction A X) Zb i + r_pred_rounding A X i + rsum m (fun j => Rabs (K i j) * rsum n (fun l => Rabs (H j l) * r_pred_rounding A X l)).
End Sizes.

(** each row of H reads one component of the state: row j reads component [s j] *)
Definition selects (n m : nat) (H : nat -> nat -> R) (s : nat -> nat) : Prop :=
  forall j, (j < m)%nat -> (s j < n)%nat /\ forall l, (l < n)%nat -> H j l = if (l =? s j)%nat then 1 else 0.
Section SharpSizes.
Variables (prec emax : Z) (n m : nat).
Notation G k := ((1 + uro prec) ^ k).
Notation e := (eta prec emax).
(** a turn of such a filter, when |x k| <= X k and the reading is within Yb j of the predicted component: the innovation has one rounding only *)
Definition r_near (A : nat -> nat -> R) (X Yb : nat -> R) (s : nat -> nat) (j : nat) : R := Yb j + r_pred_rounding prec emax n A X (s j).
Definition r_big_sel (A K : nat -> nat -> R) (X Yb : nat -> R) (s : nat -> nat) (i : nat) : R :=
  G (m + 1) * (r_big_prediction prec emax n A X i + rsum m (fun j => Rabs (K i j) * ((1 + uro prec) * r_near A X Yb s j)) + INR m * e).
Definition r_sel_room (A K : nat -> nat -> R) (X Yb : nat -> R) (s : nat -> nat) : Prop :=
  (forall i, (i < n)%nat -> r_big_prediction prec emax n A X i < too_big emax) /\ (forall j, (j < m)%nat -> (1 + uro prec) * r_near A X Yb s j < too_big emax) /\
  (forall i, (i < n)%nat -> r_big_sel A K X Yb s i < too_big emax).
Definition r_sel_rounding (A H K : nat -> nat -> R) (X Yb : nat -> R) (s : nat -> nat) (i : nat) : R :=
  (G (m + 1) - 1) * (r_big_prediction prec emax n A X i + rsum m (fun j => Rabs (K i j) * ((1 + uro prec) * r_near A X Yb s j))) + G (m + 1) * e * INR m
  + rsum m (fun j => Rabs (K i j) * (uro prec * r_near A X Yb s j))
  + rsum n (fun l => Rabs ((if (l =? i)%nat then 1 else 0) - rsum m (fun j => K i j * H j l)) * r_pred_rounding prec emax n A X l).
End SharpSizes.

(** finite entries of at most X i *)
Definition fin_vector (n : nat) (x : list spec_float) (X : nat -> R) : Prop := fin_matrix n 1 x /\ forall i, (i < n)%nat -> Rabs (rcell 1 x i 0) <= X i.

(** ** any number of turns *)
(** [K t] is the gain of the t-th turn of a filter with the model and initial covariance of [f] and [o] -- the gain of some run, with whatever data -- and it is finite *)
Definition fl_gains (c : cfg) (prec emax : Z) (sz : bool) (n m : nat) (f : kalman spec_float) (o : observation spec_float) (K : nat -> list spec_float) : Prop :=
  exists (g : nat -> kalman spec_float) (r : nat -> observation spec_float), kf_cov c n f (g 0%nat) /\
    forall t, ob_cov c n m o (r t) /\ exists g1 r', predict c (sf_num prec emax sz) n (g t) = Ok g1 /\ correct c (sf_num prec emax sz) n m (r t) g1 = Ok (r', g (S t)) /\ ob_K r' = K t /\ fin_matrix n m (K t).
(** predict, write the reading, correct *)
Definition fl_reading_ops (z : list spec_float) : list (op spec_float) := [OPredict; OSetZ 0 z; OCorrect 0].
Definition fl_readings_ops (zs : list (list spec_float)) : list (op spec_float) := flat_map fl_reading_ops zs.
Definition fl_reading_ok (prec emax : Z) (m : nat) (Zb : nat -> R) (z : list spec_float) : Prop := length z = m /\ all_in_format prec emax z /\ fin_vector m z Zb.
(** x 0, x 1, ... are states that follow the turns with readings z 0, z 1, ... up to the rounding error of each turn, T turns long *)
Definition r_follows (prec emax : Z) (n m : nat) (A H : nat -> nat -> R) (K : nat -> nat -> nat -> R) (X Zb : nat -> R) (T : nat) (x z : nat -> nat -> R) : Prop :=
  forall t i, (t < T)%nat -> (i < n)%nat -> Rabs (x (S t) i - r_turn_state n m A H (K t) (x t) (z t) i) <= r_turn_rounding prec emax n m A H (K t) X Zb i.
(** whatever the readings up to Zb: states that follow them from x0 stay within X *)
Definition r_stays (prec emax : Z) (n m : nat) (A H : nat -> nat -> R) (K : nat -> nat -> nat -> R) (x0 Zb X : nat -> R) : Prop :=
  forall T x z, (forall i, (i < n)%nat -> x 0%nat i = x0 i) -> (forall t j, (t < T)%nat -> (j < m)%nat -> Rabs (z t j) <= Zb j) -> r_follows prec emax n m A H K X Zb T x z ->
    forall t i, (t <= T)%nat -> (i < n)%nat -> Rabs (x t i) <= X i.
