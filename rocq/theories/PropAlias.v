(** * C32, C33: temporaries that share memory (Alias.v) *)
From Verif Require Import Spec SpecFilter SpecGen History Alias SpecAlias FloatNum SpecFloats ExampleData AliasMain.

(** ** C32: any program, every layout of all temporaries that obeys the documented rules: x, P and everything else
    that is not scratch end up the same as with separate buffers (panics agree too) *)
Theorem C32_permitted_sharing : forall (T : Type) (c : cfg) (N : num T) (n : nat) (L : layout) (w : world T) (mem : list T) (os : list (op T)),
  world_ok c n w -> slice_ok c mem -> layout_ok (length mem) n (ct_dims w) (ob_dims w) L ->
  Forall (fun o => op_same c n (ob_dims w) o o) os ->
  rres (fun s w' => world_rel c n (fst s) w') (run_shared c N n L (w, mem) os) (run c N n w os).
Proof. exact @shared_program. Qed.
Print Assumptions C32_permitted_sharing.

(** one correction: gain and innovation are the same as well *)
Theorem C32_permitted_sharing_call : forall (T : Type) (c : cfg) (N : num T) (n m : nat) (L : oregions) (o : observation T) (f : kalman T) (mem : list T),
  1 <= n -> 1 <= m -> ob_valid c n m o -> kf_valid c n f -> slice_ok c mem -> obs_layout_ok (length mem) n m L ->
  rres (fun r1 r2 => let '(o1, f1, _) := r1 in let '(o2, f2) := r2 in
      same_matrix n 1 (kf_x f1) (kf_x f2) /\ same_matrix n n (kf_P f1) (kf_P f2) /\
      same_matrix n m (ob_K o1) (ob_K o2) /\ same_matrix m 1 (ob_y o1) (ob_y o2))
    (correct_shared c N n m L o f mem) (Filter.correct c N n m o f).
Proof. exact @shared_call. Qed.
Print Assumptions C32_permitted_sharing_call.

(** overlapping temporaries within and between all objects *)
Example C32_example : exists (w : world Z) (mem : list Z) L, world_ok cfg64 2 w /\ slice_ok cfg64 mem /\
  layout_ok (length mem) 2 (ct_dims w) (ob_dims w) L /\ ob_dims w = [1; 2] /\
  l_P L = (0, 4) /\ l_BQ L 0 = (0, 2) /\ r_HP (l_ob L 0) = r_PHt (l_ob L 0) /\ r_Sinv (l_ob L 1) = r_HP (l_ob L 1) /\ r_PHt (l_ob L 1) = r_KHP (l_ob L 1).
Proof. exact ex_layout. Qed.

(** ** C33: breaking only one of the two rules can change the result (f32, every build) *)
Theorem C33_Sinv_PHt_harmful : forall (c : cfg) (sz : bool), 255 <= usize_max c -> exists L o f mem o1 f1 mem1 o2 f2,
  kf_valid c 1 f /\ ob_valid c 1 1 o /\ slice_ok c mem /\
  fits (length mem) (1 * 1) (r_Sinv L) /\ fits (length mem) (1 * 1) (r_HP L) /\ fits (length mem) (1 * 1) (r_PHt L) /\ fits (length mem) (1 * 1) (r_KHP L) /\
  apart (r_HP L) (r_KHP L) /\ r_Sinv L = r_PHt L /\
  correct_shared c (f32_num sz) 1 1 L o f mem = Ok (o1, f1, mem1) /\ Filter.correct c (f32_num sz) 1 1 o f = Ok (o2, f2) /\
  kf_x f1 <> kf_x f2 /\ kf_P f1 <> kf_P f2 /\ all_finite (kf_x f2) /\ all_finite (kf_P f2).
Proof. exact Sinv_PHt_harmful. Qed.
Print Assumptions C33_Sinv_PHt_harmful.

Theorem C33_HP_KHP_harmful : forall (c : cfg) (sz : bool), 255 <= usize_max c -> exists L o f mem o1 f1 mem1 o2 f2,
  kf_valid c 2 f /\ ob_valid c 2 1 o /\ slice_ok c mem /\
  fits (length mem) (1 * 1) (r_Sinv L) /\ fits (length mem) (1 * 2) (r_HP L) /\ fits (length mem) (2 * 1) (r_PHt L) /\ fits (length mem) (2 * 2) (r_KHP L) /\
  apart (r_Sinv L) (r_PHt L) /\ r_HP L = r_KHP L /\
  correct_shared c (f32_num sz) 2 1 L o f mem = Ok (o1, f1, mem1) /\ Filter.correct c (f32_num sz) 2 1 o f = Ok (o2, f2) /\
  kf_P f1 <> kf_P f2 /\ all_finite (kf_P f1) /\ all_finite (kf_P f2).
Proof. exact HP_KHP_harmful. Qed.
Print Assumptions C33_HP_KHP_harmful.
