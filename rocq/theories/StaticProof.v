(** * Buffers declared by the static macros *)
From Coq Require Import Lia.
From Verif Require Import Spec Matrix Storage Filter Builder Static SpecFilter SpecStore StoreProof StoreExamples FloatNum FixedNum.
Local Open Scope nat_scope.

Section P.
Context {T : Type} (c : cfg) (d : T).

Lemma static_ok R C : allocatable c (R * C) -> static_buffer c R C d = Ok (repeat d (R * C)).
Proof.
  intros H. apply imax_usize in H. unfold static_buffer, const_mul. destruct (Nat.leb_spec (R * C) (usize_max c)); [reflexivity|lia].
Qed.
Lemma alloc_1 n k : n <= k -> allocatable c k -> allocatable c (n * 1).
Proof. unfold allocatable. lia. Qed.

Ltac st := unfold impl_buffer_x, impl_buffer_A, impl_buffer_P, impl_buffer_Q_direct, impl_buffer_u, impl_buffer_B, impl_buffer_Q_control, impl_buffer_z, impl_buffer_H,
  impl_buffer_R, impl_buffer_y, impl_buffer_S, impl_buffer_K, impl_buffer_temp_x, impl_buffer_temp_P, impl_buffer_temp_BQ, impl_buffer_temp_S_inv, impl_buffer_temp_HP,
  impl_buffer_temp_PHt, impl_buffer_temp_KHP.

Theorem static_filter_full n : allocatable c (n * n) ->
  exists f, static_filter c n d = Ok f /\ build_filter c d n = Ok f /\ kf_fresh d n f /\ kf_valid c n f.
Proof.
  intros A. destruct (build_filter_full c d n A) as (f & E & F & V). exists f.
  assert (A1 : allocatable c (n * 1)) by (apply (alloc_1 n (n * n)); [nia|exact A]).
  assert (E' : static_filter c n d = Ok f).
  { unfold static_filter. st. rewrite !static_ok by assumption. cbn [bind]. rewrite Nat.mul_1_r.
    destruct f, F as (H1 & H2 & H3 & H4 & H5 & H6); cbn in *. congruence. }
  auto.
Qed.
Theorem static_control_full n m : allocatable c (n * m) -> allocatable c (m * m) ->
  exists k, static_control c n m d = Ok k /\ build_control c d n m = Ok k /\ ct_fresh d n m k /\ ct_valid c n m k.
Proof.
  intros A A2. destruct (build_control_full c d n m A A2) as (f & E & F & V). exists f.
  assert (A1 : allocatable c (m * 1)) by (apply (alloc_1 m (m * m)); [nia|exact A2]).
  assert (E' : static_control c n m d = Ok f).
  { unfold static_control. st. rewrite !static_ok by assumption. cbn [bind]. rewrite Nat.mul_1_r.
    destruct f, F as (H1 & H2 & H3 & H4); cbn in *. congruence. }
  auto.
Qed.
Theorem static_observation_full n m : allocatable c (n * n) -> allocatable c (n * m) -> allocatable c (m * m) ->
  exists o, static_observation c n m d = Ok o /\ build_observation c d n m = Ok o /\ ob_fresh d n m o /\ ob_valid c n m o.
Proof.
  intros A B A2. destruct (build_observation_full c d n m A B A2) as (f & E & F & V). exists f.
  assert (A1 : allocatable c (m * 1)) by (apply (alloc_1 m (m * m)); [nia|exact A2]).
  assert (B' : allocatable c (m * n)) by (rewrite Nat.mul_comm; exact B).
  assert (E' : static_observation c n m d = Ok f).
  { unfold static_observation. st. rewrite !static_ok by assumption. cbn [bind]. rewrite Nat.mul_1_r.
    destruct f, F as (H1 & H2 & H3 & H4 & H5 & H6 & H7 & H8 & H9 & H10); cbn in *. congruence. }
  auto.
Qed.
(** what compiles has the right size, in every build *)
Theorem static_sizes R C (b : list T) : static_buffer c R C d = Ok b -> length b = R * C.
Proof.
  unfold static_buffer, const_mul. destruct (R * C <=? usize_max c); [|discriminate]. cbn. intros E. injection E as <-. apply repeat_length.
Qed.
End P.

Lemma fx_zero_laws bits frac oc da : (1 <= bits)%Z -> zero_laws (fx_num bits frac oc da).
Proof.
  intros H. assert (F : fx_fits bits 0 = true).
  { unfold fx_fits, fx_min, fx_max. pose proof (Z.pow_pos_nonneg 2 (bits - 1) ltac:(lia) ltac:(lia)). apply andb_true_intro. split; apply Z.leb_le; lia. }
  split.
  - change (fx_res bits oc 0 = Some 0%Z). unfold fx_res. rewrite F. reflexivity.
  - change (fx_res bits da (0 / 2 ^ frac) = Some 0%Z). rewrite Zdiv_0_l. unfold fx_res. rewrite F. reflexivity.
Qed.

Lemma static_example c : 255 <= usize_max c -> allocatable c (3 * 3) /\ allocatable c (3 * 2) /\ allocatable c (2 * 2).
Proof. intros H. repeat split; apply small_alloc; auto; cbn; lia. Qed.
