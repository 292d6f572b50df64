(** * examples/radar_2d.rs: the functions and the Jacobians it hands to the filter *)
From Coq Require Import Reals ZArith List Lra Lia.
From Verif Require Import Prelude Numeric Matrix Storage Filter Extended Builder Spec Wp StoreExamples Radar SpecRadar RadarDeriv.
Import ListNotations.
Local Open Scope R_scope.

Section Real.
Variable c : cfg.
Hypothesis Hc : (255 <= usize_max c)%nat.
Notation M := real_maths.

Lemma set_lit C (m : list R) i j v : (i * C + j <= 255)%nat -> set_at c C m i j v = wr m (i * C + j) v.
Proof. intros H. unfold set_at. rewrite umul_ok by lia. cbn [bind]. rewrite uadd_ok by lia. reflexivity. Qed.
Lemma get_lit C (m : list R) i j : (i * C + j <= 255)%nat -> get_at c C m i j = rd m (i * C + j).
Proof. intros H. unfold get_at. rewrite umul_ok by lia. cbn [bind]. rewrite uadd_ok by lia. reflexivity. Qed.

Ltac cells := repeat (rewrite set_lit by (cbn; lia)); repeat (rewrite get_lit by (cbn; lia)).
Ltac two := replace (IZR 2 / IZR 1) with 2 by (cbn; lra); replace (IZR 1 / IZR 1) with 1 by (cbn; lra); replace (IZR 0 / IZR 1) with 0 by (cbn; lra).

Lemma transition_computes : closure_computes 4 4 moved (radar_transition M).
Proof.
  intros x out Hx Ho. destruct x as [|x0 [|x1 [|x2 [|x3 [|]]]]]; try discriminate. destruct out as [|y0 [|y1 [|y2 [|y3 [|]]]]]; try discriminate.
  cbn. unfold delta_t. cbn. unfold moved. cbn. do 2 f_equal; [|f_equal]; lra.
Qed.
Lemma transition_jacobian m : length m = 16%nat ->
  radar_transition_jacobian c M m = Ok [1; 0; 1 / 10; 0;  0; 1; 0; 1 / 10;  0; 0; 1; 0;  0; 0; 0; 1].
Proof.
  intros H. do 16 (destruct m as [|? m]; [discriminate|]). destruct m; [|discriminate].
  unfold radar_transition_jacobian, make_identity, make_comatrix, delta_t.
  unfold for_range, set_at. cbn [Nat.sub for_up].
  repeat rewrite umul_ok by (cbn; lia). cbn [bind Nat.mul Nat.add]. repeat rewrite uadd_ok by (cbn; lia). cbn. reflexivity.
Qed.

Lemma observe_computes : closure_computes 4 3 seen (radar_observe c M).
Proof.
  intros x out Hx Ho. destruct x as [|x0 [|x1 [|x2 [|x3 [|]]]]]; try discriminate. destruct out as [|y0 [|y1 [|y2 [|]]]]; try discriminate.
  unfold radar_observe, get_row, set_row, set_at, get_at. cbv zeta.
  repeat rewrite umul_ok by (cbn; lia). cbn [bind Nat.mul Nat.add]. repeat rewrite uadd_ok by (cbn; lia).
  unfold radar_x, radar_y. cbn -[pow Rminus Rdiv]. unfold seen, distance. cbn [nth]. two. reflexivity.
Qed.

(** what the example puts in its observation Jacobian *)
Definition given_jacobian (x y vx vy : R) : list R :=
  let r := distance x y in
  [x / r; y / r; 0; 0;  - (y - 1) / r ^ 2; (x - 2) / r ^ 2; 0; 0;  (y - 1) * vy / r ^ 3; ((x - 2) * vy + (y - 1) * vx) / r ^ 3; x / r; y / r].
Lemma root_cube a : 0 <= a -> sqrt (a ^ 3) = sqrt a ^ 3.
Proof.
  intros H. replace (a ^ 3) with (Rsqr a * a) by (unfold Rsqr; ring). rewrite sqrt_mult_alt by apply Rle_0_sqr. rewrite sqrt_Rsqr by exact H.
  replace (sqrt a ^ 3) with (sqrt a * sqrt a * sqrt a) by ring. rewrite sqrt_sqrt by exact H. reflexivity.
Qed.
Lemma observation_jacobian x y vx vy m : length m = 12%nat ->
  radar_observation_jacobian c M [x; y; vx; vy] m = Ok (given_jacobian x y vx vy).
Proof.
  intros H. do 12 (destruct m as [|? m]; [discriminate|]). destruct m; [|discriminate].
  unfold radar_observation_jacobian, get_row, set_at, get_at. cbv zeta.
  repeat rewrite umul_ok by (cbn; lia). cbn [bind Nat.mul Nat.add]. repeat rewrite uadd_ok by (cbn; lia).
  unfold radar_x, radar_y. cbn -[pow Rminus Rdiv]. unfold given_jacobian. two.
  pose proof (pow2_ge_0 (x - 2)). pose proof (pow2_ge_0 (y - 1)). rewrite root_cube by lra. cbv zeta. rewrite distance_sq. reflexivity.
Qed.
Lemma measure_noiseless t z : length z = 3%nat -> radar_measure c M t (0, 0, 0) z = Ok (seen [t; t; 1; 1]).
Proof.
  intros H. destruct z as [|y0 [|y1 [|y2 [|]]]]; try discriminate. unfold radar_measure, set_row, set_at. cbv zeta.
  repeat rewrite umul_ok by (cbn; lia). cbn [bind Nat.mul Nat.add]. repeat rewrite uadd_ok by (cbn; lia).
  unfold radar_x, radar_y. cbn -[pow Rminus Rdiv]. unfold seen, distance. cbn [nth]. two. rewrite !Rplus_0_r, !Rmult_1_r. reflexivity.
Qed.

Lemma lim_unique F x a b : derivable_pt_lim F x a -> derivable_pt_lim F x b -> a = b.
Proof. apply uniqueness_limite. Qed.
(** an entry is a derivative exactly if it is the one of [seen_jacobian] *)
Lemma entry_iff x y vx vy i j d : in_view x y -> (i < 3)%nat -> (j < 4)%nat ->
  (partial_derivative seen i j [x; y; vx; vy] d <-> d = nth (4 * i + j) (seen_jacobian x y vx vy) 0).
Proof.
  intros H Hi Hj. pose proof (seen_derivatives x y vx vy i j H Hi Hj) as D. split; [intros E; exact (lim_unique _ _ _ _ E D)|intros ->; exact D].
Qed.
Lemma div_inj a b r : r <> 0 -> (a / r = b / r <-> a = b).
Proof. intros H. split; [|intros ->; reflexivity]. intros E. apply (f_equal (fun q => q * r)) in E. unfold Rdiv in E. rewrite !Rmult_assoc, Rinv_l, !Rmult_1_r in E by exact H. exact E. Qed.

Lemma angle_row x y vx vy m : in_view x y -> length m = 12%nat -> exists J, radar_observation_jacobian c M [x; y; vx; vy] m = Ok J /\
  forall j, (j < 4)%nat -> partial_derivative seen 1 j [x; y; vx; vy] (nth (4 + j) J 0).
Proof.
  intros H Hm. exists (given_jacobian x y vx vy). split; [apply observation_jacobian, Hm|]. intros j Hj.
  apply (proj2 (entry_iff x y vx vy 1 j _ H ltac:(lia) Hj)). destruct j as [|[|[|[|]]]]; try lia; reflexivity.
Qed.
Lemma wrong_rows x y vx vy m : in_view x y -> length m = 12%nat -> exists J, radar_observation_jacobian c M [x; y; vx; vy] m = Ok J /\
  ~ partial_derivative seen 0 0 [x; y; vx; vy] (nth 0 J 0) /\ ~ partial_derivative seen 0 1 [x; y; vx; vy] (nth 1 J 0) /\
  partial_derivative seen 0 2 [x; y; vx; vy] (nth 2 J 0) /\ partial_derivative seen 0 3 [x; y; vx; vy] (nth 3 J 0) /\
  (partial_derivative seen 2 0 [x; y; vx; vy] (nth 8 J 0) <-> (y - 1) * vy = (y - 1) * ((y - 1) * vx - (x - 2) * vy)) /\
  (partial_derivative seen 2 1 [x; y; vx; vy] (nth 9 J 0) <-> (x - 2) * vy + (y - 1) * vx = (x - 2) * ((x - 2) * vy - (y - 1) * vx)) /\
  ~ partial_derivative seen 2 2 [x; y; vx; vy] (nth 10 J 0) /\ ~ partial_derivative seen 2 3 [x; y; vx; vy] (nth 11 J 0).
Proof.
  intros H Hm. exists (given_jacobian x y vx vy). split; [apply observation_jacobian, Hm|].
  pose proof (distance_pos _ _ (in_view_away _ _ H)) as D. assert (D1 : distance x y <> 0) by lra. assert (D3 : distance x y ^ 3 <> 0) by (apply pow_nonzero, D1).
  pose proof (fun i j d Hi Hj => entry_iff x y vx vy i j d H Hi Hj) as E.
  split. { rewrite E by lia. intros X. apply (proj1 (div_inj _ _ _ D1)) in X. lra. }
  split. { rewrite E by lia. intros X. apply (proj1 (div_inj _ _ _ D1)) in X. lra. }
  split. { apply E; [lia|lia|reflexivity]. }
  split. { apply E; [lia|lia|reflexivity]. }
  split. { rewrite E by lia. cbn -[pow]. apply div_inj, D3. }
  split. { rewrite E by lia. cbn -[pow]. apply div_inj, D3. }
  split. { rewrite E by lia. intros X. apply (proj1 (div_inj _ _ _ D1)) in X. lra. }
  rewrite E by lia. intros X. apply (proj1 (div_inj _ _ _ D1)) in X. lra.
Qed.
Lemma transition_right m s : length m = 16%nat -> length s = 4%nat -> exists J, radar_transition_jacobian c M m = Ok J /\
  forall i j, (i < 4)%nat -> (j < 4)%nat -> partial_derivative moved i j s (nth (4 * i + j) J 0).
Proof. intros Hm Hs. eexists. split; [apply transition_jacobian, Hm|]. intros i j Hi Hj. apply moved_derivatives; assumption. Qed.
Lemma true_track t : moved [t; t; 1; 1] = [t + 1 / 10; t + 1 / 10; 1; 1].
Proof. reflexivity. Qed.
End Real.
