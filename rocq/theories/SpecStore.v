(** * Specification vocabulary for freshly built objects *)
From Verif Require Export SpecFilter SpecGen.

(** every buffer has exactly the documented number of elements, all equal to [d] *)
Definition kf_fresh {T} (d : T) (n : nat) (f : kalman T) : Prop :=
  kf_A f = repeat d (n * n) /\ kf_x f = repeat d n /\ kf_P f = repeat d (n * n) /\ kf_Q f = repeat d (n * n) /\
  kf_px f = repeat d n /\ kf_tP f = repeat d (n * n).
Definition ct_fresh {T} (d : T) (n m : nat) (k : control T) : Prop :=
  ct_B k = repeat d (n * m) /\ ct_u k = repeat d m /\ ct_Q k = repeat d (m * m) /\ ct_BQ k = repeat d (n * m).
Definition ob_fresh {T} (d : T) (n m : nat) (o : observation T) : Prop :=
  ob_H o = repeat d (m * n) /\ ob_z o = repeat d m /\ ob_R o = repeat d (m * m) /\ ob_y o = repeat d m /\
  ob_S o = repeat d (m * m) /\ ob_K o = repeat d (n * m) /\ ob_Sinv o = repeat d (m * m) /\
  ob_HP o = repeat d (m * n) /\ ob_PHt o = repeat d (n * m) /\ ob_KHP o = repeat d (n * n).
Definition world_fresh {T} (d : T) (n : nat) (w : world T) : Prop :=
  kf_fresh d n (w_kf w) /\ Forall (fun v => ct_fresh d n (fst v) (snd v)) (w_ct w) /\ Forall (fun v => ob_fresh d n (fst v) (snd v)) (w_ob w).

(** all objects are small enough to be allocated at all (isize::MAX elements) *)
Definition allocatable (c : cfg) (k : nat) : Prop := (Z.of_nat k <= imax c)%Z.
Definition world_allocatable {T} (c : cfg) (n : nat) (w : world T) : Prop :=
  allocatable c (n * n) /\ Forall (fun v : nat * control T => allocatable c (n * fst v) /\ allocatable c (fst v * fst v)) (w_ct w) /\
  Forall (fun v : nat * observation T => allocatable c (n * fst v) /\ allocatable c (fst v * fst v)) (w_ob w).

(** adding and multiplying zeros gives zero (floats, exact arithmetic, fixed point) *)
Definition zero_laws {T} (N : num T) : Prop :=
  o_add N (n_zero N) (n_zero N) = Some (n_zero N) /\ o_mul N (n_zero N) (n_zero N) = Some (n_zero N).

(** a prediction or a control step *)
Definition time_update {T} (o : op T) : Prop := match o with OPredict | OControl _ => True | _ => False end.

(** a closure which writes nothing *)
Definition writes_nothing {T} : list T -> list T -> res (list T) := fun _ out => Ok out.
