(** * Specification vocabulary for histories with any element type *)
From Verif Require Export SpecFilter History.

Section SpecGen.
Context {T : Type} (c : cfg) (N : num T) (n : nat).

(** the dimensions of the controls and observations *)
Definition ct_dims (w : world T) : list nat := map fst (w_ct w).
Definition ob_dims (w : world T) : list nat := map fst (w_ob w).

(** every buffer of the program is large enough *)
Definition world_valid (w : world T) : Prop :=
  kf_valid c n (w_kf w) /\
  Forall (fun v => ct_valid c n (fst v) (snd v)) (w_ct w) /\
  Forall (fun v => ob_valid c n (fst v) (snd v)) (w_ob w).

(** ... and there is at least one state, and one component in every observation *)
Definition world_ok (w : world T) : Prop :=
  1 <= n /\ world_valid w /\ Forall (fun m => 1 <= m) (ob_dims w).

(** the closures passed by the program are well-behaved; [dims] are the dimensions of the observations *)
Definition op_safe (dims : list nat) (o : op T) : Prop :=
  match o with
  | OPredictNonlinear h | OPredictTunedNonlinear _ h => closure_ok c N n n h
  | OCorrectNonlinear j h => match nth_error dims j with Some m => closure_ok c N m n h | None => True end
  | _ => True
  end.

(** a call of the library, as opposed to the program writing to a matrix itself *)
Definition is_call (o : op T) : bool :=
  match o with
  | OPredict | OPredictTuned _ | OPredictNonlinear _ | OPredictTunedNonlinear _ _ | OControl _ | OCorrect _ | OCorrectNonlinear _ _ => true
  | _ => false
  end.

(** the model matrices and all data are untouched, and x, P changed only inside the logical matrices *)
Definition world_same_model (w w' : world T) : Prop :=
  kf_same_model (w_kf w) (w_kf w') /\ kf_same_tail n (w_kf w) (w_kf w') /\
  Forall2 (fun v v' => fst v = fst v' /\ ct_same_model (snd v) (snd v')) (w_ct w) (w_ct w') /\
  Forall2 (fun v v' => fst v = fst v' /\ ob_same_model (snd v) (snd v')) (w_ob w) (w_ob w').

(** two well-formed programs states that agree on everything but scratch space *)
Definition world_rel (w1 w2 : world T) : Prop :=
  kf_rel c n (w_kf w1) (w_kf w2) /\
  Forall2 (fun v v' => fst v = fst v' /\ ct_rel c n (fst v) (snd v) (snd v')) (w_ct w1) (w_ct w2) /\
  Forall2 (fun v v' => fst v = fst v' /\ ob_rel c n (fst v) (snd v) (snd v')) (w_ob w1) (w_ob w2).

(** the same call, with closures that compute the same function *)
Definition op_same (dims : list nat) (o1 o2 : op T) : Prop :=
  match o1, o2 with
  | OPredictNonlinear h1, OPredictNonlinear h2 => closure_two c n n h1 h2
  | OPredictTunedNonlinear l1 h1, OPredictTunedNonlinear l2 h2 => l1 = l2 /\ closure_two c n n h1 h2
  | OCorrectNonlinear j1 h1, OCorrectNonlinear j2 h2 =>
      j1 = j2 /\ match nth_error dims j1 with Some m => closure_two c m n h1 h2 | None => True end
  | OPredictNonlinear _, _ | OPredictTunedNonlinear _ _, _ | OCorrectNonlinear _ _, _ => False
  | _, _ => o1 = o2
  end.

(** [o2] is the call of the extended filter, with a closure computing A*x resp. H*x, that corresponds to the call
    [o1] of the regular filter in state [w] *)
Definition op_linear (w : world T) (o1 o2 : op T) : Prop :=
  match o1, o2 with
  | OPredict, OPredictNonlinear h => closure_two c n n (mult_rowvector c N n n (kf_A (w_kf w))) h
  | OPredictTuned l, OPredictTunedNonlinear l' h => l = l' /\ closure_two c n n (mult_rowvector c N n n (kf_A (w_kf w))) h
  | OCorrect j, OCorrectNonlinear j' h =>
      j = j' /\ match nth_error (w_ob w) j with Some (m, b) => closure_two c m n (mult_rowvector c N m n (ob_H b)) h | None => True end
  | OPredict, _ | OPredictTuned _, _ | OCorrect _, _ => False
  | _, _ => op_same (ob_dims w) o1 o2
  end.
Fixpoint ops_linear (w : world T) (os1 os2 : list (op T)) : Prop :=
  match os1, os2 with
  | [], [] => True
  | o1 :: os1, o2 :: os2 => op_linear w o1 o2 /\ forall w', step c N n w o1 = Ok w' -> ops_linear w' os1 os2
  | _, _ => False
  end.

(** ** data independence *)
(** agreement on everything that is neither scratch nor data: x, z and u are free *)
Definition kf_cov (f g : kalman T) : Prop :=
  kf_valid c n f /\ kf_valid c n g /\
  same_matrix n n (kf_A f) (kf_A g) /\ same_matrix n n (kf_P f) (kf_P g) /\ same_matrix n n (kf_Q f) (kf_Q g).
Definition ct_cov (m : nat) (k k' : control T) : Prop :=
  ct_valid c n m k /\ ct_valid c n m k' /\ same_matrix n m (ct_B k) (ct_B k') /\ same_matrix m m (ct_Q k) (ct_Q k').
Definition ob_cov (m : nat) (o o' : observation T) : Prop :=
  ob_valid c n m o /\ ob_valid c n m o' /\ same_matrix m n (ob_H o) (ob_H o') /\ same_matrix m m (ob_R o) (ob_R o').
Definition world_cov (w1 w2 : world T) : Prop :=
  kf_cov (w_kf w1) (w_kf w2) /\
  Forall2 (fun v v' => fst v = fst v' /\ ct_cov (fst v) (snd v) (snd v')) (w_ct w1) (w_ct w2) /\
  Forall2 (fun v v' => fst v = fst v' /\ ob_cov (fst v) (snd v) (snd v')) (w_ob w1) (w_ob w2).
(** the same call up to data: states, measurements, controls and nonlinear functions are free *)
Definition op_cov (o1 o2 : op T) : Prop :=
  match o1, o2 with
  | OSetX _, OSetX _ => True
  | OSetU i _, OSetU i' _ => i = i'
  | OSetZ j _, OSetZ j' _ => j = j'
  | OPredictNonlinear _, OPredictNonlinear _ => True
  | OPredictTunedNonlinear l _, OPredictTunedNonlinear l' _ => l = l'
  | OCorrectNonlinear j _, OCorrectNonlinear j' _ => j = j'
  | _, _ => o1 = o2
  end.

(** the two results of a correction have the same covariance and gain, and are still the same up to data *)
Definition cor_cov (m : nat) (r1 r2 : observation T * kalman T) : Prop :=
  ob_cov m (fst r1) (fst r2) /\ kf_cov (snd r1) (snd r2) /\ same_matrix n m (ob_K (fst r1)) (ob_K (fst r2)).

End SpecGen.
