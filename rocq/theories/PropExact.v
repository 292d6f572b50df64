(** * Properties C07, C11, C12, C14, C18-C23, C25-C28, C30, C36 and C50-C55: single calls over exact arithmetic.

    [R] is any real closed field (SpecExact.v): the real algebraic numbers, for instance, or the reals.  [mx m n l] is the
    matrix a buffer holds; [t_*] is the textbook filter; [sym], [pd], [psd], [lemx] are symmetric, positive definite, positive
    semi-definite and the semi-definite order.  Buffers may be larger than their matrix ([valid]); [same_tail] says that
    the rest of a buffer is unchanged. *)
From Verif Require Import Spec Matrix Filter Extended SpecFilter History SpecGen SpecExact SpecHistory.
From Verif Require Import Exact CholExact FilterExact CallExact ExampleData ExactExamples ExactMain.
From mathcomp Require Import all_ssreflect all_algebra.
Import GRing.Theory Num.Theory.
Local Open Scope ring_scope.
Local Notation N := exact_num.

(** ** C07: the kernels are matrix algebra *)
Theorem C07_mult : forall (R : rcfType) (c : cfg) (m k u : nat) (a b o : seq R),
  valid c m k a -> valid c k u b -> valid c m u o ->
  exists r, mult c N m k u a b o = Ok r /\ valid c m u r /\ same_tail m u o r /\
    mx m u r = mx m k a *m mx k u b.
Proof. exact @mult_mx. Qed.
Print Assumptions C07_mult.

Theorem C07_mult_transb : forall (R : rcfType) (c : cfg) (m k u : nat) (a b o : seq R),
  valid c m k a -> valid c u k b -> valid c m u o ->
  exists r, mult_transb c N m k u a b o = Ok r /\ valid c m u r /\ same_tail m u o r /\
    mx m u r = mx m k a *m (mx u k b)^T.
Proof. exact @mult_transb_mx. Qed.
Print Assumptions C07_mult_transb.

Theorem C07_multadd_transb : forall (R : rcfType) (c : cfg) (m k u : nat) (a b o : seq R),
  valid c m k a -> valid c u k b -> valid c m u o ->
  exists r, multadd_transb c N m k u a b o = Ok r /\ valid c m u r /\ same_tail m u o r /\
    mx m u r = mx m u o + mx m k a *m (mx u k b)^T.
Proof. exact @multadd_transb_mx. Qed.
Print Assumptions C07_multadd_transb.

Theorem C07_multscale_transb : forall (R : rcfType) (c : cfg) (s : R) (m k u : nat) (a b o : seq R),
  valid c m k a -> valid c u k b -> valid c m u o ->
  exists r, multscale_transb c N s m k u a b o = Ok r /\ valid c m u r /\ same_tail m u o r /\
    mx m u r = s *: (mx m k a *m (mx u k b)^T).
Proof. exact @multscale_transb_mx. Qed.
Print Assumptions C07_multscale_transb.

Theorem C07_mult_rowvector : forall (R : rcfType) (c : cfg) (m k : nat) (a x o : seq R),
  (0 < k)%N -> valid c m k a -> valid c k 1 x -> valid c m 1 o ->
  exists r, mult_rowvector c N m k a x o = Ok r /\ valid c m 1 r /\ same_tail m 1 o r /\
    mx m 1 r = mx m k a *m mx k 1 x.
Proof. exact @mult_rowvector_mx. Qed.
Print Assumptions C07_mult_rowvector.

Theorem C07_multadd_rowvector : forall (R : rcfType) (c : cfg) (m k : nat) (a x o : seq R),
  (0 < k)%N -> valid c m k a -> valid c k 1 x -> valid c m 1 o ->
  exists r, multadd_rowvector c N m k a x o = Ok r /\ valid c m 1 r /\ same_tail m 1 o r /\
    mx m 1 r = mx m 1 o + mx m k a *m mx k 1 x.
Proof. exact @multadd_rowvector_mx. Qed.
Print Assumptions C07_multadd_rowvector.

Theorem C07_sub : forall (R : rcfType) (c : cfg) (m n : nat) (a b o : seq R),
  valid c m n a -> valid c m n b -> valid c m n o ->
  exists r, m_sub c N m n a b o = Ok r /\ valid c m n r /\ same_tail m n o r /\
    mx m n r = mx m n a - mx m n b.
Proof. exact @m_sub_mx. Qed.
Print Assumptions C07_sub.

Theorem C07_add_inplace_a : forall (R : rcfType) (c : cfg) (m n : nat) (a b : seq R),
  valid c m n a -> valid c m n b ->
  exists r, add_inplace_a c N m n a b = Ok r /\ valid c m n r /\ same_tail m n a r /\
    mx m n r = mx m n a + mx m n b.
Proof. exact @add_inplace_a_mx. Qed.
Print Assumptions C07_add_inplace_a.

Theorem C07_add_inplace_b : forall (R : rcfType) (c : cfg) (m n : nat) (a b : seq R),
  valid c m n a -> valid c m n b ->
  exists r, add_inplace_b c N m n a b = Ok r /\ valid c m n r /\ same_tail m n b r /\
    mx m n r = mx m n b + mx m n a.
Proof. exact @add_inplace_b_mx. Qed.
Print Assumptions C07_add_inplace_b.

Theorem C07_sub_inplace_a : forall (R : rcfType) (c : cfg) (m n : nat) (a b : seq R),
  valid c m n a -> valid c m n b ->
  exists r, sub_inplace_a c N m n a b = Ok r /\ valid c m n r /\ same_tail m n a r /\
    mx m n r = mx m n a - mx m n b.
Proof. exact @sub_inplace_a_mx. Qed.
Print Assumptions C07_sub_inplace_a.

Theorem C07_sub_inplace_b : forall (R : rcfType) (c : cfg) (m n : nat) (a b : seq R),
  valid c m n a -> valid c m n b ->
  exists r, sub_inplace_b c N m n a b = Ok r /\ valid c m n r /\ same_tail m n b r /\
    mx m n r = mx m n a - mx m n b.
Proof. exact @sub_inplace_b_mx. Qed.
Print Assumptions C07_sub_inplace_b.

Theorem C07_copy_to : forall (R : rcfType) (c : cfg) (m n : nat) (a b : seq R),
  (0 < m)%N -> (0 < n)%N -> valid c m n a -> valid c m n b ->
  exists r, copy_to c m n a b = Ok r /\ valid c m n r /\ same_tail m n b r /\
    mx m n r = mx m n a.
Proof. exact @copy_to_mx. Qed.
Print Assumptions C07_copy_to.

Example C07_example : forall R : rcfType, valid cfg64 2 2 [:: 1; 2; 3; 4; 5 : R] /\ valid cfg64 2 1 [:: 1; 2 : R].
Proof. exact (fun R => conj (valid64 2 2 [:: 1; 2; 3; 4; 5 : R] erefl erefl) (valid64 2 1 [:: 1; 2 : R] erefl erefl)). Qed.

(** ** C11 *)
Theorem C11_cholesky : forall (R : rcfType) (c : cfg) (n : nat) (a : seq R),
  (0 < n)%N -> valid c n n a -> sym (mx n n a) ->
  exists ok l, cholesky_decompose_lower c N n n a = Ok (ok, l) /\ same_tail n n a l /\
    (ok = true <-> pd (mx n n a)) /\
    (ok = true -> chol_factor (mx n n l) /\ mx n n l *m (mx n n l)^T = mx n n a /\
       forall L, chol_factor L -> L *m L^T = mx n n a -> L = mx n n l).
Proof. exact @cholesky_main. Qed.
Print Assumptions C11_cholesky.

(** ** C12: a semi-definite singular matrix is refused, against the documentation; the rest of the contract holds *)
Theorem C12_semidefinite_refuted : forall R : rcfType,
  exists a : seq R, valid cfg64 2 2 a /\ psd (mx 2 2 a) /\ exists l, cholesky_decompose_lower cfg64 N 2 2 a = Ok (false, l).
Proof. exact @cholesky_zero. Qed.
Print Assumptions C12_semidefinite_refuted.

Theorem C12_singular_refused : forall (R : rcfType) (c : cfg) (n : nat) (a : seq R),
  (0 < n)%N -> valid c n n a -> psd (mx n n a) -> ~ pd (mx n n a) -> exists l, cholesky_decompose_lower c N n n a = Ok (false, l).
Proof. exact @cholesky_singular. Qed.
Print Assumptions C12_singular_refused.

(** missing: false only for matrices that are not semi-definite *)
Theorem C12_flag_partial : forall (R : rcfType) (c : cfg) (n : nat) (a : seq R),
  (0 < n)%N -> valid c n n a -> sym (mx n n a) ->
  exists ok l, cholesky_decompose_lower c N n n a = Ok (ok, l) /\ (~ psd (mx n n a) -> ok = false) /\ (ok = false -> ~ pd (mx n n a)).
Proof. exact @cholesky_flag. Qed.
Print Assumptions C12_flag_partial.

(** ** C14 *)
Theorem C14_inverse : forall (R : rcfType) (c : cfg) (n : nat) (a l inv0 : seq R),
  (0 < n)%N -> valid c n n a -> valid c n n inv0 -> sym (mx n n a) -> cholesky_decompose_lower c N n n a = Ok (true, l) ->
  exists X, invert_l_cholesky c N n l inv0 = Ok X /\ same_tail n n inv0 X /\
    mx n n a *m mx n n X = 1%:M /\ mx n n X *m mx n n a = 1%:M.
Proof. exact @inverse_main. Qed.
Print Assumptions C14_inverse.

Example C11_C14_example : forall R : rcfType, exists a : seq R, valid cfg64 2 2 a /\ pd (mx 2 2 a) /\ sym (mx 2 2 a).
Proof. exact @y_pd. Qed.

(** ** C18 *)
Theorem C18_predict : forall (R : rcfType) (c : cfg) (n : nat) (f : kalman R),
  (0 < n)%N -> kf_valid c n f ->
  exists f', predict c N n f = Ok f' /\ kf_valid c n f' /\ kf_same_model f f' /\ kf_same_tail n f f' /\
    kf_est n f' = t_predict (mx n n (kf_A f)) (mx n n (kf_Q f)) (kf_est n f).
Proof. exact @predict_exact. Qed.
Print Assumptions C18_predict.

(** ** C19 *)
Theorem C19_predict_tuned : forall (R : rcfType) (c : cfg) (n : nat) (lam : R) (f : kalman R),
  (0 < n)%N -> lam != 0 -> kf_valid c n f ->
  exists f', predict_tuned c N n lam f = Ok f' /\ kf_valid c n f' /\ kf_same_model f f' /\ kf_same_tail n f f' /\
    kf_est n f' = t_predict_tuned lam (mx n n (kf_A f)) (mx n n (kf_Q f)) (kf_est n f).
Proof. exact @predict_tuned_exact. Qed.
Print Assumptions C19_predict_tuned.

Theorem C19_lambda_one : forall (R : rcfType) (c : cfg) (n : nat) (f : kalman R),
  (0 < n)%N -> kf_valid c n f ->
  exists f1 f2, predict_tuned c N n 1 f = Ok f1 /\ predict c N n f = Ok f2 /\ kf_est n f1 = kf_est n f2.
Proof. exact @predict_tuned_one_call. Qed.
Print Assumptions C19_lambda_one.

(** with l2 = 1: at least the untuned covariance *)
Theorem C19_smaller_lambda : forall (R : rcfType) (c : cfg) (n : nat) (f : kalman R) (l1 l2 : R),
  (0 < n)%N -> kf_valid c n f -> psd (mx n n (kf_P f)) -> 0 < l1 -> l1 <= l2 ->
  exists f1 f2, predict_tuned c N n l1 f = Ok f1 /\ predict_tuned c N n l2 f = Ok f2 /\
    mx n 1 (kf_x f1) = mx n 1 (kf_x f2) /\ lemx (mx n n (kf_P f2)) (mx n n (kf_P f1)).
Proof. exact @predict_tuned_mono_call. Qed.
Print Assumptions C19_smaller_lambda.

(** a zero scale needs the reciprocal of zero *)
Theorem C19_lambda_zero : forall (R : rcfType) (c : cfg) (n : nat) (f : kalman R),
  (0 < n)%N -> kf_valid c n f -> predict_tuned c N n 0 f = Panic NumPanic.
Proof. exact @predict_tuned_zero. Qed.
Print Assumptions C19_lambda_zero.

(** ** C20 (a control without inputs: C17_control_empty_partial in PropMatrix.v) *)
Theorem C20_control : forall (R : rcfType) (c : cfg) (n m : nat) (k : control R) (f : kalman R),
  ct_valid c n m k -> kf_valid c n f ->
  exists k' f', control_ c N n m k f = Ok (k', f') /\ ct_valid c n m k' /\ ct_same_model k k' /\
    kf_valid c n f' /\ kf_same_model f f' /\ kf_same_tail n f f' /\
    kf_est n f' = t_control (mx n m (ct_B k)) (mx m 1 (ct_u k)) (mx m m (ct_Q k)) (kf_est n f).
Proof. exact @control_exact. Qed.
Print Assumptions C20_control.

(** ** C21, C22: the update, the gain and the innovation *)
Theorem C21_C22_correct : forall (R : rcfType) (c : cfg) (n m : nat) (o : observation R) (f : kalman R),
  (0 < n)%N -> (0 < m)%N -> ob_valid c n m o -> kf_valid c n f -> pd (t_S (mx m n (ob_H o)) (mx m m (ob_R o)) (mx n n (kf_P f))) ->
  exists o' f', correct c N n m o f = Ok (o', f') /\ ob_valid c n m o' /\ ob_same_model o o' /\
    kf_valid c n f' /\ kf_same_model f f' /\ kf_same_tail n f f' /\
    kf_est n f' = t_correct (mx m n (ob_H o)) (mx m m (ob_R o)) (mx m 1 (ob_z o)) (kf_est n f) /\
    mx m 1 (ob_y o') = mx m 1 (ob_z o) - mx m n (ob_H o) *m mx n 1 (kf_x f) /\
    mx n m (ob_K o') = t_K (mx m n (ob_H o)) (mx m m (ob_R o)) (mx n n (kf_P f)) /\
    chol_factor (mx m m (ob_S o')) /\
    mx m m (ob_S o') *m (mx m m (ob_S o'))^T = t_S (mx m n (ob_H o)) (mx m m (ob_R o)) (mx n n (kf_P f)).
Proof. exact @correct_exact. Qed.
Print Assumptions C21_C22_correct.

(** ** C23: the S buffer holds the Cholesky factor of S instead, which is S only if S is the identity *)
Theorem C23_S_buffer_refuted : forall R : rcfType,
  exists (f : kalman R) o o' f', kf_valid cfg64 2 f /\ ob_valid cfg64 2 1 o /\
  pd (t_S (mx 1 2 (ob_H o)) (mx 1 1 (ob_R o)) (mx 2 2 (kf_P f))) /\
  correct cfg64 N 2 1 o f = Ok (o', f') /\
  mx 1 1 (ob_S o') <> t_S (mx 1 2 (ob_H o)) (mx 1 1 (ob_R o)) (mx 2 2 (kf_P f)).
Proof. exact @S_buffer_witness. Qed.
Print Assumptions C23_S_buffer_refuted.

Theorem C23_S_buffer_actual : forall (R : rcfType) (c : cfg) (n m : nat) (o : observation R) (f : kalman R),
  (0 < n)%N -> (0 < m)%N -> ob_valid c n m o -> kf_valid c n f -> pd (t_S (mx m n (ob_H o)) (mx m m (ob_R o)) (mx n n (kf_P f))) ->
  exists o' f', correct c N n m o f = Ok (o', f') /\ chol_factor (mx m m (ob_S o')) /\
    mx m m (ob_S o') *m (mx m m (ob_S o'))^T = t_S (mx m n (ob_H o)) (mx m m (ob_R o)) (mx n n (kf_P f)) /\
    (mx m m (ob_S o') = t_S (mx m n (ob_H o)) (mx m m (ob_R o)) (mx n n (kf_P f)) -> t_S (mx m n (ob_H o)) (mx m m (ob_R o)) (mx n n (kf_P f)) = 1%:M).
Proof. exact @S_buffer. Qed.
Print Assumptions C23_S_buffer_actual.

(** ** C25 *)
Theorem C25_correct_decreases : forall (R : rcfType) (c : cfg) (n m : nat) (o : observation R) (f : kalman R),
  (0 < n)%N -> (0 < m)%N -> ob_valid c n m o -> kf_valid c n f -> sym (mx n n (kf_P f)) -> pd (t_S (mx m n (ob_H o)) (mx m m (ob_R o)) (mx n n (kf_P f))) ->
  exists o' f', correct c N n m o f = Ok (o', f') /\ lemx (mx n n (kf_P f')) (mx n n (kf_P f)) /\
    forall i, mx n n (kf_P f') i i <= mx n n (kf_P f) i i.
Proof. exact @correct_decreases_call. Qed.
Print Assumptions C25_correct_decreases.

(** ** C26 *)
Theorem C26_optimal_gain : forall (R : rcfType) (c : cfg) (n m : nat) (o : observation R) (f : kalman R),
  (0 < n)%N -> (0 < m)%N -> ob_valid c n m o -> kf_valid c n f -> sym (mx n n (kf_P f)) -> pd (t_S (mx m n (ob_H o)) (mx m m (ob_R o)) (mx n n (kf_P f))) ->
  exists o' f', correct c N n m o f = Ok (o', f') /\
    mx n n (kf_P f') = joseph (mx m n (ob_H o)) (mx m m (ob_R o)) (mx n n (kf_P f)) (mx n m (ob_K o')) /\
    (forall G, lemx (mx n n (kf_P f')) (joseph (mx m n (ob_H o)) (mx m m (ob_R o)) (mx n n (kf_P f)) G)) /\
    (forall G, joseph (mx m n (ob_H o)) (mx m m (ob_R o)) (mx n n (kf_P f)) G = mx n n (kf_P f') -> G = mx n m (ob_K o')).
Proof. exact @correct_optimal_call. Qed.
Print Assumptions C26_optimal_gain.

(** ** C27 *)
Theorem C27_information_form : forall (R : rcfType) (c : cfg) (n m : nat) (o : observation R) (f : kalman R),
  (0 < n)%N -> (0 < m)%N -> ob_valid c n m o -> kf_valid c n f -> pd (mx n n (kf_P f)) -> pd (mx m m (ob_R o)) ->
  exists o' f', correct c N n m o f = Ok (o', f') /\ pd (mx n n (kf_P f')) /\
    invmx (mx n n (kf_P f')) = invmx (mx n n (kf_P f)) + (mx m n (ob_H o))^T *m invmx (mx m m (ob_R o)) *m mx m n (ob_H o) /\
    invmx (mx n n (kf_P f')) *m mx n 1 (kf_x f') = invmx (mx n n (kf_P f)) *m mx n 1 (kf_x f) + (mx m n (ob_H o))^T *m invmx (mx m m (ob_R o)) *m mx m 1 (ob_z o) /\
    forall xi, xi != mx n 1 (kf_x f') ->
      wls (mx m n (ob_H o)) (mx m m (ob_R o)) (mx m 1 (ob_z o)) (kf_est n f) (mx n 1 (kf_x f')) < wls (mx m n (ob_H o)) (mx m m (ob_R o)) (mx m 1 (ob_z o)) (kf_est n f) xi.
Proof. exact @correct_info_call. Qed.
Print Assumptions C27_information_form.

Example C18_C27_example : forall R : rcfType, exists (f : kalman R) k o1 o2 o12 o2u o0, y_objects (const_mx 2) (x_P R 2) f k o1 o2 o12 o2u o0 /\
  pd (mx 2 2 (kf_P f)) /\ pd (mx 1 1 (ob_R o1)) /\ pd (mx 2 2 (ob_R o2)) /\
  pd (t_S (mx 1 2 (ob_H o1)) (mx 1 1 (ob_R o1)) (mx 2 2 (kf_P f))) /\
  pd (t_S (mx 2 2 (ob_H o2)) (mx 2 2 (ob_R o2)) (mx 2 2 (kf_P f))).
Proof. exact @y_calls. Qed.

(** ** C28 (any number of observations in any order: C28_any_order in PropHistory.v) *)
(** the hypotheses are met by the objects of C18_C27_example (o1, o2, o12) *)
Theorem C28_stacked : forall (R : rcfType) (c : cfg) (n m1 m2 : nat) (o1 o2 o12 : observation R) (f : kalman R),
  (0 < n)%N -> (0 < m1)%N -> (0 < m2)%N -> ob_valid c n m1 o1 -> ob_valid c n m2 o2 -> ob_valid c n (m1 + m2) o12 -> kf_valid c n f ->
  psd (mx n n (kf_P f)) -> pd (mx m1 m1 (ob_R o1)) -> pd (mx m2 m2 (ob_R o2)) ->
  mx (m1 + m2) n (ob_H o12) = col_mx (mx m1 n (ob_H o1)) (mx m2 n (ob_H o2)) ->
  mx (m1 + m2) 1 (ob_z o12) = col_mx (mx m1 1 (ob_z o1)) (mx m2 1 (ob_z o2)) ->
  mx (m1 + m2) (m1 + m2) (ob_R o12) = block_mx (mx m1 m1 (ob_R o1)) 0 0 (mx m2 m2 (ob_R o2)) ->
  exists o1a f1 o2a f12 o2b f2 o1b f21 o12' fs,
    (correct c N n m1 o1 f = Ok (o1a, f1) /\ correct c N n m2 o2 f1 = Ok (o2a, f12)) /\
    (correct c N n m2 o2 f = Ok (o2b, f2) /\ correct c N n m1 o1 f2 = Ok (o1b, f21)) /\
    correct c N n (m1 + m2) o12 f = Ok (o12', fs) /\
    kf_est n f12 = kf_est n fs /\ kf_est n f21 = kf_est n fs.
Proof. exact @correct_stacked_call. Qed.
Print Assumptions C28_stacked.

(** ** C30 *)
Theorem C30_zero_innovation : forall (R : rcfType) (c : cfg) (n m : nat) (o : observation R) (f : kalman R),
  (0 < n)%N -> (0 < m)%N -> ob_valid c n m o -> kf_valid c n f -> pd (t_S (mx m n (ob_H o)) (mx m m (ob_R o)) (mx n n (kf_P f))) ->
  exists o' f', correct c N n m o f = Ok (o', f') /\
    (mx m 1 (ob_z o) = mx m n (ob_H o) *m mx n 1 (kf_x f) -> mx n 1 (kf_x f') = mx n 1 (kf_x f)) /\
    mx m 1 (ob_z o) - mx m n (ob_H o) *m mx n 1 (kf_x f') = mx m m (ob_R o) *m invmx (t_S (mx m n (ob_H o)) (mx m m (ob_R o)) (mx n n (kf_P f))) *m (mx m 1 (ob_z o) - mx m n (ob_H o) *m mx n 1 (kf_x f)) /\
    (mx m m (ob_R o) = 0 -> mx m n (ob_H o) *m mx n 1 (kf_x f') = mx m 1 (ob_z o) /\ (sym (mx n n (kf_P f)) -> mx m n (ob_H o) *m mx n n (kf_P f') = 0)).
Proof. exact @correct_zero_call. Qed.
Print Assumptions C30_zero_innovation.

Example C30_example : forall R : rcfType, exists (f : kalman R) k o1 o2 o12 o2u o0, y_objects (const_mx 2) (x_P R 2) f k o1 o2 o12 o2u o0 /\
  mx 1 1 (ob_R o0) = 0 /\ pd (t_S (mx 1 2 (ob_H o0)) (mx 1 1 (ob_R o0)) (mx 2 2 (kf_P f))).
Proof. exact @y_exact_measurement. Qed.

(** ** C36: the extended filter; [computes c F h] says that the closure [h] writes F(x) *)
Theorem C36_predict_nonlinear : forall (R : rcfType) (c : cfg) (n : nat) (F : 'cV[R]_n -> 'cV[R]_n) (h : seq R -> seq R -> res (seq R)) (f : kalman R),
  (0 < n)%N -> kf_valid c n f -> computes c F h ->
  exists f', predict_nonlinear c N n h f = Ok f' /\ kf_valid c n f' /\ kf_same_model f f' /\ kf_same_tail n f f' /\
    kf_est n f' = Est (F (mx n 1 (kf_x f))) (mx n n (kf_A f) *m mx n n (kf_P f) *m (mx n n (kf_A f))^T + mx n n (kf_Q f)).
Proof. exact @predict_nonlinear_exact. Qed.
Print Assumptions C36_predict_nonlinear.

Theorem C36_predict_tuned_nonlinear : forall (R : rcfType) (c : cfg) (n : nat) (lam : R) (F : 'cV[R]_n -> 'cV[R]_n) (h : seq R -> seq R -> res (seq R)) (f : kalman R),
  (0 < n)%N -> lam != 0 -> kf_valid c n f -> computes c F h ->
  exists f', predict_tuned_nonlinear c N n lam h f = Ok f' /\ kf_valid c n f' /\ kf_same_model f f' /\ kf_same_tail n f f' /\
    kf_est n f' = Est (F (mx n 1 (kf_x f))) ((lam ^+ 2)^-1 *: (mx n n (kf_A f) *m mx n n (kf_P f) *m (mx n n (kf_A f))^T) + mx n n (kf_Q f)).
Proof. exact @predict_tuned_nonlinear_exact. Qed.
Print Assumptions C36_predict_tuned_nonlinear.

Theorem C36_correct_nonlinear : forall (R : rcfType) (c : cfg) (n m : nat) (F : 'cV[R]_n -> 'cV[R]_m) (h : seq R -> seq R -> res (seq R)) (o : observation R) (f : kalman R),
  (0 < n)%N -> (0 < m)%N -> ob_valid c n m o -> kf_valid c n f -> computes c F h -> pd (t_S (mx m n (ob_H o)) (mx m m (ob_R o)) (mx n n (kf_P f))) ->
  exists o' f', correct_nonlinear c N n m h o f = Ok (o', f') /\ ob_valid c n m o' /\ ob_same_model o o' /\
    kf_valid c n f' /\ kf_same_model f f' /\ kf_same_tail n f f' /\
    kf_est n f' = t_update (mx m n (ob_H o)) (mx m m (ob_R o)) (mx m 1 (ob_z o) - F (mx n 1 (kf_x f))) (kf_est n f) /\
    mx m 1 (ob_y o') = mx m 1 (ob_z o) - F (mx n 1 (kf_x f)) /\
    mx n m (ob_K o') = t_K (mx m n (ob_H o)) (mx m m (ob_R o)) (mx n n (kf_P f)).
Proof. exact @correct_nonlinear_exact. Qed.
Print Assumptions C36_correct_nonlinear.

Example C36_example : forall (R : rcfType) (F : 'cV[R]_2 -> 'cV[R]_1), exists h, computes cfg64 F h.
Proof. exact (fun R F => ex_intro _ (Represent.cl F) (@Represent.cl_computes R cfg64 2 1 F)). Qed.

(** ** C42, one correction (whole histories: PropHistory.v): the error e = x - xt and the measurement noise v *)
Theorem C42_correct_error : forall (R : rcfType) (c : cfg) (n m : nat) (o : observation R) (f : kalman R) (xt : 'cV[R]_n) (v : 'cV[R]_m),
  (0 < n)%N -> (0 < m)%N -> ob_valid c n m o -> kf_valid c n f -> pd (t_S (mx m n (ob_H o)) (mx m m (ob_R o)) (mx n n (kf_P f))) -> mx m 1 (ob_z o) = mx m n (ob_H o) *m xt + v ->
  exists o' f', correct c N n m o f = Ok (o', f') /\
    mx n 1 (kf_x f') - xt = (1%:M - mx n m (ob_K o') *m mx m n (ob_H o)) *m (mx n 1 (kf_x f) - xt) + mx n m (ob_K o') *m v.
Proof. exact @correct_error_call. Qed.
Print Assumptions C42_correct_error.

(** ** C50: after a correction the measured quantity is at least as certain as the sensor *)
Theorem C50_as_certain_as_sensor : forall (R : rcfType) (c : cfg) (n m : nat) (o : observation R) (f : kalman R),
  (0 < n)%N -> (0 < m)%N -> ob_valid c n m o -> kf_valid c n f -> psd (mx n n (kf_P f)) -> pd (mx m m (ob_R o)) ->
  exists o' f', correct c N n m o f = Ok (o', f') /\ lemx (mx m n (ob_H o) *m mx n n (kf_P f') *m (mx m n (ob_H o))^T) (mx m m (ob_R o)).
Proof. exact @correct_HPH_call. Qed.
Print Assumptions C50_as_certain_as_sensor.

(** ** C51: states uncorrelated with the measured quantities are left alone *)
Theorem C51_unseen_states_untouched : forall (R : rcfType) (c : cfg) (n m : nat) (o : observation R) (f : kalman R) (i : 'I_n),
  (0 < n)%N -> (0 < m)%N -> ob_valid c n m o -> kf_valid c n f -> pd (t_S (mx m n (ob_H o)) (mx m m (ob_R o)) (mx n n (kf_P f))) -> row i (mx n n (kf_P f) *m (mx m n (ob_H o))^T) = 0 ->
  exists o' f', correct c N n m o f = Ok (o', f') /\ mx n 1 (kf_x f') i 0 = mx n 1 (kf_x f) i 0 /\ row i (mx n n (kf_P f')) = row i (mx n n (kf_P f)) /\
    (sym (mx n n (kf_P f)) -> col i (mx n n (kf_P f')) = col i (mx n n (kf_P f))).
Proof. exact @correct_unseen_call. Qed.
Print Assumptions C51_unseen_states_untouched.

Example C51_example : forall R : rcfType, exists (f : kalman R) k o1 o2 o12 o2u o0, y_objects (const_mx 2) 1%:M f k o1 o2 o12 o2u o0 /\
  pd (t_S (mx 1 2 (ob_H o1)) (mx 1 1 (ob_R o1)) (mx 2 2 (kf_P f))) /\ row 1 (mx 2 2 (kf_P f) *m (mx 1 2 (ob_H o1))^T) = 0.
Proof. exact @y_unseen. Qed.

(** ** C52: a filter that is certain ignores measurements *)
Theorem C52_certain_filter : forall (R : rcfType) (c : cfg) (n m : nat) (o : observation R) (f : kalman R),
  (0 < n)%N -> (0 < m)%N -> ob_valid c n m o -> kf_valid c n f -> pd (mx m m (ob_R o)) -> mx n n (kf_P f) = 0 ->
  exists o' f', correct c N n m o f = Ok (o', f') /\ mx n 1 (kf_x f') = mx n 1 (kf_x f) /\ mx n n (kf_P f') = 0 /\ mx n m (ob_K o') = 0.
Proof. exact @correct_certain_call. Qed.
Print Assumptions C52_certain_filter.

Example C52_example : forall R : rcfType, exists (f : kalman R) k o1 o2 o12 o2u o0, y_objects (const_mx 2) 0 f k o1 o2 o12 o2u o0 /\
  pd (mx 1 1 (ob_R o1)) /\ mx 2 2 (kf_P f) = 0.
Proof. exact @y_certain. Qed.

(** ** C53: the units of the measurement do not matter *)
(** the hypotheses are met by o2, o2u of C18_C27_example with M = x_A, which is invertible (x_A_unit) *)
Theorem C53_measurement_units : forall (R : rcfType) (c : cfg) (n m : nat) (o1 o2 : observation R) (f : kalman R) (M : 'M[R]_m),
  (0 < n)%N -> (0 < m)%N -> ob_valid c n m o1 -> ob_valid c n m o2 -> kf_valid c n f ->
  pd (t_S (mx m n (ob_H o1)) (mx m m (ob_R o1)) (mx n n (kf_P f))) -> M \in unitmx ->
  mx m n (ob_H o2) = M *m mx m n (ob_H o1) -> mx m m (ob_R o2) = M *m mx m m (ob_R o1) *m M^T -> mx m 1 (ob_z o2) = M *m mx m 1 (ob_z o1) ->
  exists o1' f1 o2' f2, correct c N n m o1 f = Ok (o1', f1) /\ correct c N n m o2 f = Ok (o2', f2) /\ kf_est n f1 = kf_est n f2.
Proof. exact @correct_units_call. Qed.
Print Assumptions C53_measurement_units.
