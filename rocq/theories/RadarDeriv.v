(** * The derivatives of what the radar sees *)
From Coq Require Import Reals ZArith List Lra Lia.
From Coquelicot Require Import Coquelicot.
From Verif Require Import Prelude Radar SpecRadar.
Import ListNotations.
Local Open Scope R_scope.

Lemma radius_pos x y : x <> 2 \/ y <> 1 -> 0 < (x - 2) ^ 2 + (y - 1) ^ 2.
Proof.
  intros H. pose proof (pow2_ge_0 (x - 2)). pose proof (pow2_ge_0 (y - 1)).
  destruct H as [H|H].
  - assert (x - 2 <> 0) by lra. pose proof (Rsqr_pos_lt _ H2) as P. unfold Rsqr in P. nra.
  - assert (y - 1 <> 0) by lra. pose proof (Rsqr_pos_lt _ H2) as P. unfold Rsqr in P. nra.
Qed.
Lemma in_view_away x y : in_view x y -> x <> 2 \/ y <> 1.
Proof. intros [H|H]; [right; exact H|left; lra]. Qed.
Lemma distance_pos x y : x <> 2 \/ y <> 1 -> 0 < distance x y.
Proof. intros H. apply sqrt_lt_R0, radius_pos, H. Qed.
Lemma distance_sq x y : distance x y ^ 2 = (x - 2) ^ 2 + (y - 1) ^ 2.
Proof.
  unfold distance. rewrite <- Rsqr_pow2. apply Rsqr_sqrt. pose proof (pow2_ge_0 (x - 2)). pose proof (pow2_ge_0 (y - 1)). lra.
Qed.

Ltac roots x y := repeat match goal with |- context [sqrt ?a] => lazymatch a with ((x - 2) ^ 2 + (y - 1) ^ 2)%R => fail | _ => replace a with ((x - 2) ^ 2 + (y - 1) ^ 2) by ring end end.
(** distance *)
Lemma d_distance_x x y : x <> 2 \/ y <> 1 -> is_derive (fun t => distance t y) x ((x - 2) / distance x y).
Proof.
  intros H. pose proof (radius_pos _ _ H) as P. pose proof (distance_pos _ _ H) as D. unfold distance in *. auto_derive.
  - replace (_ + _) with ((x - 2) ^ 2 + (y - 1) ^ 2) by ring. exact P.
  - roots x y. field. lra.
Qed.
Lemma d_distance_y x y : x <> 2 \/ y <> 1 -> is_derive (fun t => distance x t) y ((y - 1) / distance x y).
Proof.
  intros H. pose proof (radius_pos _ _ H) as P. pose proof (distance_pos _ _ H) as D. unfold distance in *. auto_derive.
  - replace (_ + _) with ((x - 2) ^ 2 + (y - 1) ^ 2) by ring. exact P.
  - roots x y. field. lra.
Qed.

(** the angle *)
Lemma angle_right y x : 0 < x -> angle y x = atan (y / x).
Proof. intros H. unfold angle. destruct (Rlt_dec 0 x); [reflexivity|lra]. Qed.
Lemma angle_up y x : 0 < y -> angle y x = PI / 2 - atan (x / y).
Proof.
  intros H. unfold angle. destruct (Rlt_dec 0 x) as [Hx|Hx].
  - replace (y / x) with (/ (x / y)) by (field; lra). rewrite atan_inv; [reflexivity|]. apply Rdiv_lt_0_compat; assumption.
  - destruct (Rlt_dec x 0) as [Hn|Hn].
    + destruct (Rle_dec 0 y); [|lra].
      replace (y / x) with (- / (- x / y)) by (field; lra). rewrite atan_opp, atan_inv by (apply Rdiv_lt_0_compat; lra).
      replace (- x / y) with (- (x / y)) by (field; lra). rewrite atan_opp. lra.
    + assert (x = 0) by lra. subst x. destruct (Rlt_dec 0 y); [|lra]. unfold Rdiv. rewrite Rmult_0_l, atan_0. lra.
Qed.
Lemma angle_down y x : y < 0 -> angle y x = - (PI / 2) - atan (x / y).
Proof.
  intros H. unfold angle. destruct (Rlt_dec 0 x) as [Hx|Hx].
  - replace (y / x) with (- / (x / - y)) by (field; lra). rewrite atan_opp, atan_inv by (apply Rdiv_lt_0_compat; lra).
    replace (x / - y) with (- (x / y)) by (field; lra). rewrite atan_opp. lra.
  - destruct (Rlt_dec x 0) as [Hn|Hn].
    + destruct (Rle_dec 0 y); [lra|].
      replace (y / x) with (/ (x / y)) by (field; lra). rewrite atan_inv; [lra|].
      replace (x / y) with (- x / - y) by (field; lra). apply Rdiv_lt_0_compat; lra.
    + assert (x = 0) by lra. subst x. destruct (Rlt_dec 0 y); [lra|]. destruct (Rlt_dec y 0); [|lra]. unfold Rdiv. rewrite Rmult_0_l, atan_0. lra.
Qed.
Lemma away_pos a b : a <> 0 \/ b <> 0 -> 0 < a ^ 2 + b ^ 2.
Proof.
  intros H. replace (a ^ 2 + b ^ 2) with ((a + 2 - 2) ^ 2 + (b + 1 - 1) ^ 2) by ring. apply radius_pos. destruct H; [left|right]; lra.
Qed.
Lemma d_angle_x y x : y <> 0 \/ 0 < x -> is_derive (fun t => angle y t) x (- y / (x ^ 2 + y ^ 2)).
Proof.
  intros H.
  assert (P : 0 < x ^ 2 + y ^ 2) by (apply away_pos; destruct H; [right|left]; lra).
  destruct (Rtotal_order y 0) as [Hy|[Hy|Hy]].
  - apply (is_derive_ext (fun t => - (PI / 2) - atan (t / y))). { intros t. symmetry. apply angle_down, Hy. }
    auto_derive; [exact I|]. unfold Rsqr. field. split; nra.
  - destruct H as [H|H]; [lra|].
    apply (is_derive_ext_loc (fun t => atan (y / t))).
    { exists (mkposreal x H). intros t Ht. symmetry. apply angle_right. unfold ball in Ht. cbn in Ht. unfold AbsRing_ball, abs, minus, plus, opp in Ht. cbn in Ht.
      apply Rabs_def2 in Ht. lra. }
    auto_derive; [lra|]. unfold Rsqr. field. split; nra.
  - apply (is_derive_ext (fun t => PI / 2 - atan (t / y))). { intros t. symmetry. apply angle_up, Hy. }
    auto_derive; [exact I|]. unfold Rsqr. field. split; nra.
Qed.
Lemma d_angle_y y x : y <> 0 \/ 0 < x -> is_derive (fun t => angle t x) y (x / (x ^ 2 + y ^ 2)).
Proof.
  intros H.
  assert (P : 0 < x ^ 2 + y ^ 2) by (apply away_pos; destruct H; [right|left]; lra).
  destruct (Rtotal_order y 0) as [Hy|[Hy|Hy]].
  - apply (is_derive_ext_loc (fun t => - (PI / 2) - atan (x / t))).
    { assert (Hm : 0 < - y) by lra. exists (mkposreal _ Hm). intros t Ht. symmetry. apply angle_down. unfold ball in Ht. cbn in Ht. unfold AbsRing_ball, abs, minus, plus, opp in Ht. cbn in Ht.
      apply Rabs_def2 in Ht. lra. }
    auto_derive; [lra|]. unfold Rsqr. field. split; nra.
  - destruct H as [H|H]; [lra|].
    apply (is_derive_ext (fun t => atan (t / x))). { intros t. symmetry. apply angle_right, H. }
    auto_derive; [exact I|]. unfold Rsqr. field. split; nra.
  - apply (is_derive_ext_loc (fun t => PI / 2 - atan (x / t))).
    { exists (mkposreal _ Hy). intros t Ht. symmetry. apply angle_up. unfold ball in Ht. cbn in Ht. unfold AbsRing_ball, abs, minus, plus, opp in Ht. cbn in Ht.
      apply Rabs_def2 in Ht. lra. }
    auto_derive; [lra|]. unfold Rsqr. field. split; nra.
Qed.

Lemma d_shift (F : R -> R) k x d : is_derive F (x - k) d -> is_derive (fun t => F (t - k)) x d.
Proof.
  intros H. replace d with (scal 1 d) by (unfold scal; cbn; unfold mult; cbn; ring).
  apply (is_derive_comp F (fun t => t - k)); [exact H|]. auto_derive; [exact I|ring].
Qed.

(** the speed away from the radar *)
Lemma d_speed_x x y vx vy : x <> 2 \/ y <> 1 ->
  is_derive (fun t => ((t - 2) * vx + (y - 1) * vy) / distance t y) x ((y - 1) * ((y - 1) * vx - (x - 2) * vy) / distance x y ^ 3).
Proof.
  intros H. pose proof (radius_pos _ _ H) as P. pose proof (distance_pos _ _ H) as D. pose proof (distance_sq x y) as E. unfold distance in *. auto_derive.
  - split; [replace (_ + _) with ((x - 2) ^ 2 + (y - 1) ^ 2) by ring; exact P|]. split; [roots x y; lra|exact I].
  - roots x y. set (r := sqrt _) in *. replace ((y - 1) * ((y - 1) * vx - (x - 2) * vy)) with (vx * r ^ 2 - ((x - 2) * vx + (y - 1) * vy) * (x - 2)) by (rewrite E; ring).
    field. lra.
Qed.
Lemma d_speed_y x y vx vy : x <> 2 \/ y <> 1 ->
  is_derive (fun t => ((x - 2) * vx + (t - 1) * vy) / distance x t) y ((x - 2) * ((x - 2) * vy - (y - 1) * vx) / distance x y ^ 3).
Proof.
  intros H. pose proof (radius_pos _ _ H) as P. pose proof (distance_pos _ _ H) as D. pose proof (distance_sq x y) as E. unfold distance in *. auto_derive.
  - split; [replace (_ + _) with ((x - 2) ^ 2 + (y - 1) ^ 2) by ring; exact P|]. split; [roots x y; lra|exact I].
  - roots x y. set (r := sqrt _) in *. replace ((x - 2) * ((x - 2) * vy - (y - 1) * vx)) with (vy * r ^ 2 - ((x - 2) * vx + (y - 1) * vy) * (y - 1)) by (rewrite E; ring).
    field. lra.
Qed.

Lemma to_lim (F : R -> R) x d : is_derive F x d -> derivable_pt_lim F x d.
Proof. apply is_derive_Reals. Qed.

Lemma seen_derivatives x y vx vy i j : in_view x y -> (i < 3)%nat -> (j < 4)%nat ->
  partial_derivative seen i j [x; y; vx; vy] (nth (4 * i + j) (seen_jacobian x y vx vy) 0).
Proof.
  intros H Hi Hj. pose proof (in_view_away _ _ H) as A. pose proof (distance_pos _ _ A) as D.
  assert (V : y - 1 <> 0 \/ 0 < x - 2) by (destruct H; [left|right]; lra).
  unfold partial_derivative. apply to_lim. unfold seen, seen_jacobian.
  assert (E : forall u, u / distance x y ^ 2 = u / ((x - 2) ^ 2 + (y - 1) ^ 2)) by (intros; rewrite distance_sq; reflexivity).
  destruct i as [|[|[|]]]; try lia; destruct j as [|[|[|[|]]]]; try lia; cbn [Nat.mul Nat.add nth upd].
  - apply d_distance_x, A.
  - apply d_distance_y, A.
  - auto_derive; [exact I|reflexivity].
  - auto_derive; [exact I|reflexivity].
  - rewrite E. apply (d_shift (fun t => angle (y - 1) t) 2). apply d_angle_x, V.
  - rewrite E. apply (d_shift (fun t => angle t (x - 2)) 1). apply d_angle_y, V.
  - auto_derive; [exact I|reflexivity].
  - auto_derive; [exact I|reflexivity].
  - apply d_speed_x, A.
  - apply d_speed_y, A.
  - auto_derive; [lra|field; lra].
  - auto_derive; [lra|field; lra].
Qed.
Lemma moved_derivatives s i j : length s = 4%nat -> (i < 4)%nat -> (j < 4)%nat ->
  partial_derivative moved i j s (nth (4 * i + j) [1; 0; 1 / 10; 0;  0; 1; 0; 1 / 10;  0; 0; 1; 0;  0; 0; 0; 1] 0).
Proof.
  intros Hs Hi Hj. destruct s as [|a [|b [|u [|v [|]]]]]; try discriminate. unfold partial_derivative. apply to_lim. unfold moved.
  destruct i as [|[|[|[|]]]]; try lia; destruct j as [|[|[|[|]]]]; try lia; cbn [Nat.mul Nat.add nth upd]; (auto_derive; [exact I|field]).
Qed.
