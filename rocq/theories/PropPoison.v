(** * C77 and C78: infinities and NaN are never repaired, and bad data destroys the whole state silently.

    Element type: [sf_num prec emax], i.e. f32, f64 (any IEEE format).  A program is any list of calls and writes on one filter with its
    controls and observations (History.v); [world_ok], [op_safe]: all buffers are large enough, all user functions well behaved.
    Vocabulary: SpecPoison.v. *)
From Verif Require Import Spec Matrix Filter Extended SpecFilter History SpecGen SpecFloats SpecPoison Poison BitsExamples PoisonExamples.

(** ** C77: a non-finite component of the state stays non-finite whatever the program does short of replacing the state, and the first
    prediction spreads it to all components *)
Theorem C77_state : forall (c : cfg) (prec emax : Z) (sz : bool) (n : nat) (w : world spec_float) (os : list (op spec_float)) (i : nat),
  world_ok c n w -> Forall (op_safe c (sf_num prec emax sz) n (ob_dims w)) os -> forallb keeps_x os = true ->
  i < n -> bad_cell 1 (kf_x (w_kf w)) i 0 ->
  exists w', run c (sf_num prec emax sz) n w os = Ok w' /\ bad_cell 1 (kf_x (w_kf w')) i 0 /\
    (existsb predicts os = true -> all_bad n 1 (kf_x (w_kf w'))).
Proof. exact run_bad_x. Qed.
Print Assumptions C77_state.

(** the same of the covariance *)
Theorem C77_covariance : forall (c : cfg) (prec emax : Z) (sz : bool) (n : nat) (w : world spec_float) (os : list (op spec_float)) (i k : nat),
  world_ok c n w -> Forall (op_safe c (sf_num prec emax sz) n (ob_dims w)) os -> forallb keeps_P os = true ->
  i < n -> k < n -> bad_cell n (kf_P (w_kf w)) i k ->
  exists w', run c (sf_num prec emax sz) n w os = Ok w' /\ bad_cell n (kf_P (w_kf w')) i k /\
    (existsb predicts os = true -> all_bad n n (kf_P (w_kf w'))).
Proof. exact run_bad_P. Qed.
Print Assumptions C77_covariance.

(** and the state follows the covariance: with the first correction (by any observation at all, o) component i of the state is lost for good *)
Theorem C77_covariance_destroys_state : forall (c : cfg) (prec emax : Z) (sz : bool) (n : nat) (w : world spec_float)
    (os1 : list (op spec_float)) (o : op spec_float) (os2 : list (op spec_float)) (i k j : nat),
  world_ok c n w -> Forall (op_safe c (sf_num prec emax sz) n (ob_dims w)) (os1 ++ o :: os2) ->
  forallb keeps_P os1 = true -> corrects j o = true -> j < length (w_ob w) -> forallb keeps_x os2 = true ->
  i < n -> k < n -> bad_cell n (kf_P (w_kf w)) i k ->
  exists w', run c (sf_num prec emax sz) n w (os1 ++ o :: os2) = Ok w' /\ bad_cell 1 (kf_x (w_kf w')) i 0 /\
    (existsb predicts os1 = true \/ existsb predicts os2 = true -> all_bad n 1 (kf_x (w_kf w'))).
Proof. exact run_bad_P_x. Qed.
Print Assumptions C77_covariance_destroys_state.

Example C77_state_example : forall (c : cfg) (sz : bool), 255 <= usize_max c -> let w := world_ex kf_nan_x ct_ex ob_ex in
  world_ok c 2 w /\ Forall (op_safe c (f32_num sz) 2 (ob_dims w)) prog_ex /\ forallb keeps_x prog_ex = true /\ existsb predicts prog_ex = true /\
  bad_cell 1 (kf_x (w_kf w)) 1 0 /\ ~ bad_cell 1 (kf_x (w_kf w)) 0 0.
Proof. exact poison_x_example. Qed.
Example C77_covariance_example : forall (c : cfg) (sz : bool), 255 <= usize_max c -> let w := world_ex kf_inf_P ct_ex ob_ex in
  world_ok c 2 w /\ Forall (op_safe c (f32_num sz) 2 (ob_dims w)) prog_ex /\ forallb keeps_P prog_ex = true /\ existsb predicts prog_ex = true /\
  bad_cell 2 (kf_P (w_kf w)) 0 0 /\ ~ bad_cell 2 (kf_P (w_kf w)) 1 1 /\ prog_ex = [] ++ OCorrect 0 :: tl prog_ex /\ forallb keeps_x (tl prog_ex) = true.
Proof. exact poison_P_example. Qed.

(** ** C78: one non-finite component of a measurement destroys every component of the state for good, while the covariance is what it
    would have been with any other measurement (and state, and later data) *)
Theorem C78_measurement : forall (c : cfg) (prec emax : Z) (sz : bool) (n : nat) (w : world spec_float) (j m : nat) (b : observation spec_float) (p : nat)
    (o : op spec_float) (os : list (op spec_float)),
  world_ok c n w -> Forall (op_safe c (sf_num prec emax sz) n (ob_dims w)) (o :: os) ->
  nth_error (w_ob w) j = Some (m, b) -> p < m -> bad_cell 1 (ob_z b) p 0 -> corrects j o = true -> forallb keeps_x os = true ->
  exists w', run c (sf_num prec emax sz) n w (o :: os) = Ok w' /\ all_bad n 1 (kf_x (w_kf w')) /\
    forall w2 os2, world_cov c n w w2 -> Forall2 op_cov (o :: os) os2 -> Forall (op_safe c (sf_num prec emax sz) n (ob_dims w)) os2 ->
      exists w2', run c (sf_num prec emax sz) n w2 os2 = Ok w2' /\ same_matrix n n (kf_P (w_kf w')) (kf_P (w_kf w2')).
Proof. exact bad_measurement_run. Qed.
Print Assumptions C78_measurement.

(** a non-finite control input likewise *)
Theorem C78_input : forall (c : cfg) (prec emax : Z) (sz : bool) (n : nat) (w : world spec_float) (j m : nat) (k : control spec_float) (p : nat) (os : list (op spec_float)),
  world_ok c n w -> Forall (op_safe c (sf_num prec emax sz) n (ob_dims w)) os ->
  nth_error (w_ct w) j = Some (m, k) -> p < m -> bad_cell 1 (ct_u k) p 0 -> forallb keeps_x os = true ->
  exists w', run c (sf_num prec emax sz) n w (OControl j :: os) = Ok w' /\ all_bad n 1 (kf_x (w_kf w')) /\
    forall w2 os2, world_cov c n w w2 -> Forall2 op_cov (OControl j :: os) os2 -> Forall (op_safe c (sf_num prec emax sz) n (ob_dims w)) os2 ->
      exists w2', run c (sf_num prec emax sz) n w2 os2 = Ok w2' /\ same_matrix n n (kf_P (w_kf w')) (kf_P (w_kf w2')).
Proof. exact bad_input_run. Qed.
Print Assumptions C78_input.

Example C78_example : forall (c : cfg) (sz : bool), 255 <= usize_max c -> let w := world_ex kf_ex ct_inf ob_nan in let w2 := world_ex kf_ex ct_ex ob_ex in
  world_ok c 2 w /\ Forall (op_safe c (f32_num sz) 2 (ob_dims w)) prog_ex /\ forallb keeps_x prog_ex = true /\
  bad_cell 1 (ob_z ob_nan) 1 0 /\ bad_cell 1 (ct_u ct_inf) 0 0 /\ world_cov c 2 w w2 /\ Forall2 op_cov prog_ex prog_ex.
Proof. exact poison_data_example. Qed.
