(** * Vocabulary: calls that panic and are caught *)
From Verif Require Export Spec SpecBits SpecFilter SpecGen Crash.

Section SpecCrash.
Context {T : Type}.
Notation mat := (nat -> nat -> option T).

(** A matrix that was being overwritten row by row, from the first cell on, when the value of cell number k could not be computed:
    the cells in front of it are new, it and all others are old. *)
Definition torn_up (R C k : nat) (before after now : mat) : Prop :=
  k < R * C /\ forall i j, i < R -> j < C ->
    now i j = (if i * C + j <? k then after i j else before i j) /\ (i * C + j = k -> after i j = None).
(** the same, overwritten from the last cell on *)
Definition torn_down (R C k : nat) (before after now : mat) : Prop :=
  k < R * C /\ forall i j, i < R -> j < C ->
    now i j = (if k <? i * C + j then after i j else before i j) /\ (i * C + j = k -> after i j = None).
(** some cell of a matrix could not be computed *)
Definition no_value (R C : nat) (M : mat) : Prop := exists i j, i < R /\ j < C /\ M i j = None.


(** ** where a call can have got to *)
Section Left.
Variables (c : cfg) (N : num T) (n : nat).
(** the filter's matrices and storage are still in order, its model untouched *)
Definition kf_kept (f f' : kalman T) : Prop := kf_valid c n f' /\ kf_same_model f f' /\ kf_same_tail n f f'.
Definition ob_kept (m : nat) (o o' : observation T) : Prop := ob_valid c n m o' /\ ob_same_model o o'.
Definition ct_kept (m : nat) (k k' : control T) : Prop := ct_valid c n m k' /\ ct_same_model k k'.
(** neither the state nor the covariance has been touched *)
Definition untouched (f f' : kalman T) : Prop := kf_x f' = kf_x f /\ kf_P f' = kf_P f.
(** the covariance half of a prediction that did not return; [G] is the matrix A P A' (times the tuning factor): the covariance is the old one;
    or was being replaced by G; or has been replaced by G and Q was being added *)
Definition left_cov (f : kalman T) (G : mat) (f' : kalman T) : Prop :=
  (exists k, torn_up n n k (cell n (kf_P f)) G (cell n (kf_P f'))) \/
  (exists k, torn_down n n k G (fun i j => b_add N (G i j) (cell n (kf_Q f) i j)) (cell n (kf_P f'))).
Definition APAt (f : kalman T) : mat := b_prodt N n (b_prod N n (cell n (kf_A f)) (cell n (kf_P f))) (cell n (kf_A f)).
(** [lambda] the tuning, if any *)
Definition left_predict_P (lambda : option T) (f f' : kalman T) : Prop :=
  match lambda with
  | None => (kf_P f' = kf_P f /\ no_value n n (b_prod N n (cell n (kf_A f)) (cell n (kf_P f)))) \/ left_cov f (APAt f) f'
  | Some l => (kf_P f' = kf_P f /\ (obind (o_mul N l l) (o_recip N) = None \/ no_value n n (b_prod N n (cell n (kf_A f)) (cell n (kf_P f))))) \/
      exists g, obind (o_mul N l l) (o_recip N) = Some g /\ left_cov f (fun i j => b_mul N (APAt f i j) (Some g)) f'
  end.
(** the gain of an observation with matrix H and noise R of a filter with covariance P, and what it was computed from *)
Definition b_gain (m : nat) (H R P L Si K : mat) : Prop := exists S : mat,
  (forall i j, i < m -> j < m -> S i j = b_add N (b_prodt N n (b_prod N n H P) H i j) (R i j)) /\
  (b_factor N m S L \/ b_no_factor N m S L) /\ b_inverse N m L Si /\
  (forall i j, i < n -> j < m -> K i j = b_prod N m (b_prodt N n P H) Si i j).
(** a correction with the innovation y that did not return: nothing has happened to the filter yet; or the gain K is complete and the state was
    being corrected; or the state has been corrected and the covariance is the old one or was being corrected *)
Definition left_update (m : nat) (y : mat) (o : observation T) (f : kalman T) (o' : observation T) (f' : kalman T) : Prop :=
  untouched f f' \/
  (let H := cell n (ob_H o) in let P := cell n (kf_P f) in let K := cell m (ob_K o') in
   b_gain m H (cell m (ob_R o)) P (cell m (ob_S o')) (cell m (ob_Sinv o')) K /\
   let x1 := fun i (_ : nat) => b_add N (cell 1 (kf_x f) i 0) (b_prodv N m K y i 0) in
   let KHP := b_prod N m K (b_prod N n H P) in
   ((kf_P f' = kf_P f /\ exists k, torn_up n 1 k (cell 1 (kf_x f)) x1 (cell 1 (kf_x f'))) \/
    ((forall i, i < n -> cell 1 (kf_x f') i 0 = x1 i 0) /\
     ((kf_P f' = kf_P f /\ no_value n n KHP) \/
      exists k, torn_down n n k P (fun i j => b_sub N (P i j) (KHP i j)) (cell n (kf_P f')))))).
(** a control input that did not return *)
Definition left_control (m : nat) (k : control T) (f f' : kalman T) : Prop :=
  let B := cell m (ct_B k) in let BQ := b_prod N m B (cell m (ct_Q k)) in
  let x1 := fun i (_ : nat) => b_add N (cell 1 (kf_x f) i 0) (b_prodv N m B (cell 1 (ct_u k)) i 0) in
  (kf_P f' = kf_P f /\ exists q, torn_up n 1 q (cell 1 (kf_x f)) x1 (cell 1 (kf_x f'))) \/
  ((forall i, i < n -> cell 1 (kf_x f') i 0 = x1 i 0) /\
   ((kf_P f' = kf_P f /\ no_value n m BQ) \/
    exists q, torn_up n n q (cell n (kf_P f)) (fun i j => b_add N (cell n (kf_P f) i j) (b_prodt N m BQ B i j)) (cell n (kf_P f')))).
End Left.

(** a closure that, returning or unwinding, leaves its output slice large enough; [who] are the panics it raises itself *)
Definition closure_keeps (c : cfg) (m n : nat) (who : panic -> Prop) (h : list T -> list T -> cr (list T)) : Prop :=
  forall x out, valid c n 1 x -> valid c m 1 out -> match h x out with Returned o => valid c m 1 o | Unwound o p => valid c m 1 o /\ who p end.
Definition cop_keeps (c : cfg) (n : nat) (who : panic -> Prop) (dims : list nat) (o : cop T) : Prop :=
  match o with
  | CPredictNonlinear h | CPredictTunedNonlinear _ h => closure_keeps c n n who h
  | CCorrectNonlinear j h => match nth_error dims j with Some m => closure_keeps c m n who h | None => True end
  | _ => True
  end.
Definition cop_is_call (o : cop T) : bool := match o with CWrite _ => false | _ => true end.

(** writing back an earlier state and covariance *)
Definition restore (saved w : world T) : world T :=
  set_kf w (mk_kalman (kf_A (w_kf w)) (kf_x (w_kf saved)) (kf_P (w_kf saved)) (kf_Q (w_kf w)) (kf_px (w_kf w)) (kf_tP (w_kf w))).

(** the call of the closure that the operation [o] passes to the library, in state [w] *)
Definition closure_call (w : world T) (o : cop T) : option (cr (list T)) :=
  match o with
  | CPredictNonlinear h | CPredictTunedNonlinear _ h => Some (h (kf_x (w_kf w)) (kf_px (w_kf w)))
  | CCorrectNonlinear j h => match nth_error (w_ob w) j with Some (_, b) => Some (h (kf_x (w_kf w)) (ob_y b)) | None => None end
  | _ => None
  end.

(** both calls return, or both unwind with the same panic *)
Definition crel {S1 S2} (R U : S1 -> S2 -> Prop) (m1 : cr S1) (m2 : cr S2) : Prop :=
  match m1, m2 with Returned a, Returned b => R a b | Unwound a p, Unwound b q => U a b /\ p = q | _, _ => False end.
(** closures that compute the same, or raise the same panic, whatever their output slice holds *)
Definition closure_alike (c : cfg) (m n : nat) (h1 h2 : list T -> list T -> cr (list T)) : Prop :=
  forall x1 x2 o1 o2, mrel c n 1 x1 x2 -> valid c m 1 o1 -> valid c m 1 o2 -> crel (mrel c m 1) (fun a b => valid c m 1 a /\ valid c m 1 b) (h1 x1 o1) (h2 x2 o2).
(** the same call, with closures that are alike *)
Definition cop_alike (c : cfg) (n : nat) (dims : list nat) (o1 o2 : cop T) : Prop :=
  match o1, o2 with
  | CPredictNonlinear h1, CPredictNonlinear h2 => closure_alike c n n h1 h2
  | CPredictTunedNonlinear l1 h1, CPredictTunedNonlinear l2 h2 => l1 = l2 /\ closure_alike c n n h1 h2
  | CCorrectNonlinear j1 h1, CCorrectNonlinear j2 h2 => j1 = j2 /\ match nth_error dims j1 with Some m => closure_alike c m n h1 h2 | None => True end
  | CPredictNonlinear _, _ | CPredictTunedNonlinear _ _, _ | CCorrectNonlinear _ _, _ => False
  | _, _ => o1 = o2
  end.
(** two programs whose states differ in scratch space only, and whose calls had the same outcomes *)
Definition same_story (c : cfg) (n : nat) (r1 r2 : world T * list (option panic)) : Prop := world_rel c n (fst r1) (fst r2) /\ snd r1 = snd r2.
End SpecCrash.
