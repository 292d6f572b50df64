(** * Vocabulary: one turn (predict, then correct) of a fixed-point filter, its state apart from its covariance *)
From Verif Require Export SpecFixedRange SpecGen FixedNum.
Open Scope Q_scope.

(** the state after a turn of the filter with gain K in exact arithmetic: p + K (z - H p) with p = A x *)
Definition q_predicted (n : nat) (A : nat -> nat -> Q) (x : nat -> Q) (i : nat) : Q := qsum n (fun k => A i k * x k).
Definition q_turn_state (n m : nat) (A H K : nat -> nat -> Q) (x z : nat -> Q) (i : nat) : Q :=
  q_predicted n A x i + qsum m (fun j => K i j * (z j - qsum n (fun l => H j l * q_predicted n A x l))).

(** the largest prediction and innovation possible with |x k| <= X k and |z j| <= Z j *)
Definition q_big_prediction (frac : Z) (n : nat) (A : nat -> nat -> Q) (X : nat -> Q) (i : nat) : Q := qsum n (fun k => Qabs (A i k) * X k) + qn n * ulp frac.
Definition q_big_innovation (frac : Z) (n : nat) (A H : nat -> nat -> Q) (X Zb : nat -> Q) (j : nat) : Q :=
  Zb j + (qsum n (fun l => Qabs (H j l) * q_big_prediction frac n A X l) + qn n * ulp frac).
(** they fit, and so does the corrected state *)
Definition q_turn_room (bits frac : Z) (n m : nat) (A H K : nat -> nat -> Q) (X Zb : nat -> Q) : Prop :=
  (forall i, (i < n)%nat -> q_big_prediction frac n A X i + qsum m (fun j => Qabs (K i j) * q_big_innovation frac n A H X Zb j) + qn m * ulp frac <= fx_top bits frac) /\
  (forall j, (j < m)%nat -> q_big_innovation frac n A H X Zb j < fx_top bits frac).
(** rounding error of one turn *)
Definition q_turn_rounding (frac : Z) (n m : nat) (H K : nat -> nat -> Q) (i : nat) : Q :=
  (qn n + qn m + qsum m (fun j => Qabs (K i j) * (qn n * (1 + qsum n (fun l => Qabs (H j l)))))) * ulp frac.

(** [K t] is the gain of the t-th turn of a filter with the model and initial covariance of [f] and [o]: the gains of some run in a build with
    all checks, with whatever data *)
Definition fx_gains (c : cfg) (bits frac : Z) (n m : nat) (f : kalman Z) (o : observation Z) (K : nat -> list Z) : Prop :=
  exists (g : nat -> kalman Z) (r : nat -> observation Z), kf_cov c n f (g 0%nat) /\
    forall t, ob_cov c n m o (r t) /\ exists g1 r', predict c (fx_num bits frac true true) n (g t) = Ok g1 /\ correct c (fx_num bits frac true true) n m (r t) g1 = Ok (r', g (S t)) /\ ob_K r' = K t.

(** turns of a program: predict, write the reading, correct *)
Definition reading_ops (z : list Z) : list (op Z) := [OPredict; OSetZ 0 z; OCorrect 0].
Definition readings_ops (zs : list (list Z)) : list (op Z) := flat_map reading_ops zs.
Definition reading_ok (frac : Z) (m : nat) (Zb : nat -> Q) (z : list Z) : Prop := length z = m /\ forall j, (j < m)%nat -> Qabs (qcell frac 1 z j 0) <= Zb j.

(** x 0, x 1, ... are states that follow the turns with readings z 0, z 1, ... up to the rounding error of each turn, T turns long *)
Definition q_follows (frac : Z) (n m : nat) (A H : nat -> nat -> Q) (K : nat -> nat -> nat -> Q) (T : nat) (x z : nat -> nat -> Q) : Prop :=
  forall t i, (t < T)%nat -> (i < n)%nat -> Qabs (x (S t) i - q_turn_state n m A H (K t) (x t) (z t) i) <= q_turn_rounding frac n m H (K t) i.
(** whatever the readings up to Zb: states that follow them from x0 stay within X *)
Definition q_stays (frac : Z) (n m : nat) (A H : nat -> nat -> Q) (K : nat -> nat -> nat -> Q) (x0 Zb X : nat -> Q) : Prop :=
  forall T x z, (forall i, (i < n)%nat -> x 0%nat i == x0 i) -> (forall t j, (t < T)%nat -> (j < m)%nat -> Qabs (z t j) <= Zb j) -> q_follows frac n m A H K T x z ->
    forall t i, (t <= T)%nat -> (i < n)%nat -> Qabs (x t i) <= X i.
