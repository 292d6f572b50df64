(** * C63: every step is the documented formula, evaluated in one fixed order in the element type's own arithmetic.

    For every element type (floats, fixed point with overflow panics, ...), every size and contents: a call that returns has computed
    exactly the operations of SpecBits.v, in that order and association, from the matrices alone - so results are reproducible bit for bit.
    [cell n M] is the matrix M of n columns by its cells. *)
From Verif Require Import Spec SpecBits Matrix Filter Extended SpecFilter FloatNum SpecFloats BitsProof BitsExamples.

Theorem C63_predict : forall (T : Type) (c : cfg) (N : num T) (n : nat) (f f' : kalman T),
  1 <= n -> kf_valid c n f -> predict c N n f = Ok f' ->
  (forall i, i < n -> cell 1 (kf_x f') i 0 = b_prodv N n (cell n (kf_A f)) (cell 1 (kf_x f)) i 0) /\
  b_cov N n (cell n (kf_A f)) (cell n (kf_P f)) (cell n (kf_Q f)) (cell n (kf_P f')).
Proof. exact @predict_bits. Qed.
Print Assumptions C63_predict.

Theorem C63_predict_tuned : forall (T : Type) (c : cfg) (N : num T) (n : nat) (lambda : T) (f f' : kalman T),
  1 <= n -> kf_valid c n f -> predict_tuned c N n lambda f = Ok f' ->
  (forall i, i < n -> cell 1 (kf_x f') i 0 = b_prodv N n (cell n (kf_A f)) (cell 1 (kf_x f)) i 0) /\
  exists l2 factor, o_mul N lambda lambda = Some l2 /\ o_recip N l2 = Some factor /\
  b_cov_tuned N n factor (cell n (kf_A f)) (cell n (kf_P f)) (cell n (kf_Q f)) (cell n (kf_P f')).
Proof. exact @predict_tuned_bits. Qed.
Print Assumptions C63_predict_tuned.

Theorem C63_predict_nonlinear : forall (T : Type) (c : cfg) (N : num T) (n : nat) (st : list T -> list T -> res (list T)) (f f' : kalman T),
  1 <= n -> kf_valid c n f -> (forall out, st (kf_x f) (kf_px f) = Ok out -> valid c n 1 out) ->
  predict_nonlinear c N n st f = Ok f' ->
  (exists out, st (kf_x f) (kf_px f) = Ok out /\ forall i, i < n -> cell 1 (kf_x f') i 0 = cell 1 out i 0) /\
  b_cov N n (cell n (kf_A f)) (cell n (kf_P f)) (cell n (kf_Q f)) (cell n (kf_P f')).
Proof. exact @predict_nl_bits. Qed.
Print Assumptions C63_predict_nonlinear.

Theorem C63_predict_tuned_nonlinear : forall (T : Type) (c : cfg) (N : num T) (n : nat) (lambda : T) (st : list T -> list T -> res (list T)) (f f' : kalman T),
  1 <= n -> kf_valid c n f -> (forall out, st (kf_x f) (kf_px f) = Ok out -> valid c n 1 out) ->
  predict_tuned_nonlinear c N n lambda st f = Ok f' ->
  (exists out, st (kf_x f) (kf_px f) = Ok out /\ forall i, i < n -> cell 1 (kf_x f') i 0 = cell 1 out i 0) /\
  exists l2 factor, o_mul N lambda lambda = Some l2 /\ o_recip N l2 = Some factor /\
  b_cov_tuned N n factor (cell n (kf_A f)) (cell n (kf_P f)) (cell n (kf_Q f)) (cell n (kf_P f')).
Proof. exact @predict_tuned_nl_bits. Qed.
Print Assumptions C63_predict_tuned_nonlinear.

Theorem C63_control : forall (T : Type) (c : cfg) (N : num T) (n m : nat) (k k' : control T) (f f' : kalman T),
  1 <= n -> 1 <= m -> kf_valid c n f -> ct_valid c n m k -> control_ c N n m k f = Ok (k', f') ->
  (forall i, i < n -> cell 1 (kf_x f') i 0 = b_add N (cell 1 (kf_x f) i 0) (b_prodv N m (cell m (ct_B k)) (cell 1 (ct_u k)) i 0)) /\
  (forall i j, i < n -> j < n -> cell n (kf_P f') i j =
    b_add N (cell n (kf_P f) i j) (b_prodt N m (b_prod N m (cell m (ct_B k)) (cell m (ct_Q k))) (cell m (ct_B k)) i j)).
Proof. exact @control_bits. Qed.
Print Assumptions C63_control.

Theorem C63_cholesky : forall (T : Type) (c : cfg) (N : num T) (n : nat) (A : list T) (b : bool) (L : list T),
  1 <= n -> valid c n n A -> cholesky_decompose_lower c N n n A = Ok (b, L) ->
  same_tail n n A L /\ if b then b_factor N n (cell n A) (cell n L) else b_no_factor N n (cell n A) (cell n L).
Proof. exact @cholesky_bits. Qed.
Print Assumptions C63_cholesky.

Theorem C63_invert : forall (T : Type) (c : cfg) (N : num T) (n : nat) (L inv0 X : list T),
  1 <= n -> valid c n n L -> valid c n n inv0 -> invert_l_cholesky c N n L inv0 = Ok X ->
  same_tail n n inv0 X /\ b_inverse N n (cell n L) (cell n X).
Proof. exact @invert_bits. Qed.
Print Assumptions C63_invert.

Theorem C63_correct : forall (T : Type) (c : cfg) (N : num T) (n m : nat) (o o' : observation T) (f f' : kalman T),
  1 <= n -> 1 <= m -> ob_valid c n m o -> kf_valid c n f -> correct c N n m o f = Ok (o', f') ->
  (forall i, i < m -> cell 1 (ob_y o') i 0 = b_sub N (cell 1 (ob_z o) i 0) (b_prodv N n (cell n (ob_H o)) (cell 1 (kf_x f)) i 0)) /\
  b_update N n m (cell n (ob_H o)) (cell m (ob_R o)) (cell n (kf_P f)) (cell 1 (kf_x f)) (cell 1 (ob_y o'))
    (cell m (ob_S o')) (cell m (ob_Sinv o')) (cell m (ob_K o')) (cell 1 (kf_x f')) (cell n (kf_P f')).
Proof. exact @correct_bits'. Qed.
Print Assumptions C63_correct.

Theorem C63_correct_nonlinear : forall (T : Type) (c : cfg) (N : num T) (n m : nat) (h : list T -> list T -> res (list T))
    (o o' : observation T) (f f' : kalman T),
  1 <= n -> 1 <= m -> ob_valid c n m o -> kf_valid c n f -> (forall out, h (kf_x f) (ob_y o) = Ok out -> valid c m 1 out) ->
  correct_nonlinear c N n m h o f = Ok (o', f') ->
  (exists out, h (kf_x f) (ob_y o) = Ok out /\ forall i, i < m -> cell 1 (ob_y o') i 0 = b_sub N (cell 1 (ob_z o) i 0) (cell 1 out i 0)) /\
  b_update N n m (cell n (ob_H o)) (cell m (ob_R o)) (cell n (kf_P f)) (cell 1 (kf_x f)) (cell 1 (ob_y o'))
    (cell m (ob_S o')) (cell m (ob_Sinv o')) (cell m (ob_K o')) (cell 1 (kf_x f')) (cell n (kf_P f')).
Proof. exact @correct_nl_bits'. Qed.
Print Assumptions C63_correct_nonlinear.

(** concrete calls meeting the hypotheses: two states, two measured components, one control input, f32 *)
Example C63_example : forall (c : cfg) (sz : bool), 255 <= usize_max c -> kf_valid c 2 kf_ex /\ ob_valid c 2 2 ob_ex /\ ct_valid c 2 1 ct_ex /\
  (exists f', predict c (f32_num sz) 2 kf_ex = Ok f' /\ all_finite (kf_P f')) /\
  (exists f', predict_tuned c (f32_num sz) 2 (f32 3 (-2)) kf_ex = Ok f' /\ all_finite (kf_P f')) /\
  (exists k' f', control_ c (f32_num sz) 2 1 ct_ex kf_ex = Ok (k', f') /\ all_finite (kf_P f')) /\
  (exists o' f', correct c (f32_num sz) 2 2 ob_ex kf_ex = Ok (o', f') /\ all_finite (kf_P f')).
Proof. exact bits_examples. Qed.
Example C63_example_nonlinear : forall (c : cfg) (sz : bool), 255 <= usize_max c -> kf_valid c 2 kf_ex /\ ob_valid c 2 2 ob_ex /\
  (forall out, st_ex (kf_x kf_ex) (kf_px kf_ex) = Ok out -> valid c 2 1 out) /\
  (exists f', predict_nonlinear c (f32_num sz) 2 st_ex kf_ex = Ok f' /\ all_finite (kf_P f')) /\
  (exists f', predict_tuned_nonlinear c (f32_num sz) 2 (f32 3 (-2)) st_ex kf_ex = Ok f' /\ all_finite (kf_P f')) /\
  (forall out, st_ex (kf_x kf_ex) (ob_y ob_ex) = Ok out -> valid c 2 1 out) /\
  (exists o' f', correct_nonlinear c (f32_num sz) 2 2 st_ex ob_ex kf_ex = Ok (o', f') /\ all_finite (kf_P f')).
Proof. exact bits_examples_nl. Qed.
