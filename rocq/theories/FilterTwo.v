(** * The calls of the filter for any element type: panics and frames (one run),
      influence of scratch buffers and data (two runs) *)
From Verif Require Import Spec Matrix Filter Extended SpecFilter Wp Kernels Access Chol Inv FilterGen.

Section One.
Context {T : Type} (c : cfg) (N : num T).
Notation NP := (arith_only N).

Lemma st_refl m n (l : list T) : same_tail m n l l.
Proof. split; auto. Qed.
Lemma st_trans m n (a b d : list T) : same_tail m n a b -> same_tail m n b d -> same_tail m n a d.
Proof. intros [H1 H2] [H3 H4]; split; [congruence|]. intros p Hp. rewrite H4, H2; auto. Qed.

Ltac step L := apply wp_bind; eapply wp_mono; [eapply L; auto| |intros; eassumption]; 
  let l := fresh "l" in let V := fresh "V" in let S := fresh "S" in intros l [V S].
Ltac fin := repeat match goal with |- _ /\ _ => split end; auto using st_refl.

Lemma predict_x_wp n f : 1 <= n -> kf_valid c n f ->
  wp (predict_x c N n f) (fun f' => kf_valid c n f' /\ kf_same_model f f' /\ kf_same_tail n f f') NP.
Proof.
  intros Hn (vA & vx & vP & vQ & vpx & vtP). unfold predict_x.
  step (@mult_rowvector_wp T). step (@copy_to_wp T). cbn [wp]. unfold kf_valid, kf_same_model, kf_same_tail; cbn. fin.
Qed.
Lemma predict_P_wp n f : kf_valid c n f ->
  wp (predict_P c N n f) (fun f' => kf_valid c n f' /\ kf_same_model f f' /\ kf_same_tail n f f') NP.
Proof.
  intros (vA & vx & vP & vQ & vpx & vtP). unfold predict_P.
  step (@mult_wp T). step (@mult_transb_wp T). step (@add_inplace_b_wp T).
  cbn [wp]. unfold kf_valid, kf_same_model, kf_same_tail; cbn. fin. eauto using st_trans.
Qed.
Lemma predict_P_tuned_wp n lam f : kf_valid c n f ->
  wp (predict_P_tuned c N n lam f) (fun f' => kf_valid c n f' /\ kf_same_model f f' /\ kf_same_tail n f f') NP.
Proof.
  intros (vA & vx & vP & vQ & vpx & vtP). unfold predict_P_tuned.
  unfold n_mul at 1, n_recip. destruct (o_mul N lam lam) as [l2|] eqn:E1; cbn [of_opt bind wp]; [|split; [auto|]; intros HN; exact (never_mul N HN _ _ E1)].
  destruct (o_recip N l2) as [fac|] eqn:E2; cbn [of_opt bind wp]; [|split; [auto|]; intros HN; destruct HN as (_&_&_&_&HN&_); exact (HN _ E2)].
  step (@mult_wp T). step (@multscale_transb_wp T). step (@add_inplace_b_wp T).
  cbn [wp]. unfold kf_valid, kf_same_model, kf_same_tail; cbn. fin. eauto using st_trans.
Qed.

Lemma frame_trans n (f g h : kalman T) : kf_same_model f g /\ kf_same_tail n f g -> kf_same_model g h /\ kf_same_tail n g h ->
  kf_same_model f h /\ kf_same_tail n f h.
Proof.
  intros [[A1 Q1] [X1 P1]] [[A2 Q2] [X2 P2]]. unfold kf_same_model, kf_same_tail. fin; try congruence; eauto using st_trans.
Qed.

Lemma predict_wp n f : 1 <= n -> kf_valid c n f ->
  wp (predict c N n f) (fun f' => kf_valid c n f' /\ kf_same_model f f' /\ kf_same_tail n f f') NP.
Proof.
  intros Hn Hf. unfold predict. apply wp_bind. eapply wp_mono; [apply predict_x_wp; auto| |auto].
  intros g (Vg & Fg). eapply wp_mono; [apply predict_P_wp; auto| |auto].
  intros h (Vh & Fh). split; [auto|eapply frame_trans; eauto].
Qed.
Lemma predict_tuned_wp n lam f : 1 <= n -> kf_valid c n f ->
  wp (predict_tuned c N n lam f) (fun f' => kf_valid c n f' /\ kf_same_model f f' /\ kf_same_tail n f f') NP.
Proof.
  intros Hn Hf. unfold predict_tuned. apply wp_bind. eapply wp_mono; [apply predict_x_wp; auto| |auto].
  intros g (Vg & Fg). eapply wp_mono; [apply predict_P_tuned_wp; auto| |auto].
  intros h (Vh & Fh). split; [auto|eapply frame_trans; eauto].
Qed.

Lemma predict_x_nonlinear_wp n h f : 1 <= n -> kf_valid c n f -> closure_ok c N n n h ->
  wp (predict_x_nonlinear c n h f) (fun f' => kf_valid c n f' /\ kf_same_model f f' /\ kf_same_tail n f f') NP.
Proof.
  intros Hn (vA & vx & vP & vQ & vpx & vtP) Hh. unfold predict_x_nonlinear.
  apply wp_bind. eapply wp_mono; [apply Hh; auto| |auto]. intros px Vpx.
  step (@copy_to_wp T). cbn [wp]. unfold kf_valid, kf_same_model, kf_same_tail; cbn. fin.
Qed.
Lemma predict_nonlinear_wp n h f : 1 <= n -> kf_valid c n f -> closure_ok c N n n h ->
  wp (predict_nonlinear c N n h f) (fun f' => kf_valid c n f' /\ kf_same_model f f' /\ kf_same_tail n f f') NP.
Proof.
  intros Hn Hf Hh. unfold predict_nonlinear. apply wp_bind. eapply wp_mono; [apply predict_x_nonlinear_wp; auto| |auto].
  intros g (Vg & Fg). eapply wp_mono; [apply predict_P_wp; auto| |auto].
  intros k (Vh & Fh). split; [auto|eapply frame_trans; eauto].
Qed.
Lemma predict_tuned_nonlinear_wp n lam h f : 1 <= n -> kf_valid c n f -> closure_ok c N n n h ->
  wp (predict_tuned_nonlinear c N n lam h f) (fun f' => kf_valid c n f' /\ kf_same_model f f' /\ kf_same_tail n f f') NP.
Proof.
  intros Hn Hf Hh. unfold predict_tuned_nonlinear. apply wp_bind. eapply wp_mono; [apply predict_x_nonlinear_wp; auto| |auto].
  intros g (Vg & Fg). eapply wp_mono; [apply predict_P_tuned_wp; auto| |auto].
  intros k (Vh & Fh). split; [auto|eapply frame_trans; eauto].
Qed.

Lemma is_empty_valid m n (l : list T) : valid c m n l -> is_empty c m n = Ok (m * n =? 0).
Proof.
  intros Hv. destruct (valid_bound _ _ _ _ Hv). unfold is_empty. rewrite umul_ok by lia. reflexivity.
Qed.

Lemma apply_control_wp n m k x P : ct_valid c n m k -> valid c n 1 x -> valid c n n P ->
  wp (apply_control c N n m k x P)
    (fun r => let '(k', x', P') := r in ct_valid c n m k' /\ ct_same_model k k' /\ okm c n 1 x x' /\ okm c n n P P') NP.
Proof.
  intros (vB & vu & vQ & vBQ) vx vP. unfold apply_control.
  rewrite (is_empty_valid _ _ _ vu). cbn [bind]. rewrite Nat.mul_1_r.
  assert (Hz : ct_valid c n m k /\ ct_same_model k k /\ okm c n 1 x x /\ okm c n n P P).
  { unfold ct_valid, ct_same_model, okm. fin. }
  destruct (Nat.eqb_spec m 0) as [Hm|Hm]; cbn [bind]; [exact Hz|].
  rewrite (is_empty_valid _ _ _ vB). cbn [bind].
  destruct (Nat.eqb_spec (n * m) 0) as [Hn|Hn]; cbn [bind]; [exact Hz|].
  assert (1 <= m) by lia.
  step (@multadd_rowvector_wp T). step (@mult_wp T). step (@multadd_transb_wp T). cbn [wp].
  unfold ct_valid, ct_same_model, okm; cbn. fin.
Qed.

Lemma control_wp n m k f : ct_valid c n m k -> kf_valid c n f ->
  wp (control_ c N n m k f)
    (fun r => let '(k', f') := r in ct_valid c n m k' /\ ct_same_model k k' /\ kf_valid c n f' /\ kf_same_model f f' /\ kf_same_tail n f f') NP.
Proof.
  intros Hk (vA & vx & vP & vQ & vpx & vtP). unfold control_. apply wp_bind.
  eapply wp_mono; [apply apply_control_wp; auto| |auto]. intros [[k' x'] P'] (H1 & H2 & [H3 H4] & [H5 H6]). cbn [wp].
  unfold kf_valid, kf_same_model, kf_same_tail; cbn. fin.
Qed.

Lemma update_wp n m o x P : 1 <= n -> 1 <= m -> ob_valid c n m o -> valid c n 1 x -> valid c n n P ->
  wp (update_with_innovation c N n m o x P)
    (fun r => let '(o', x', P') := r in ob_valid c n m o' /\ ob_same_model o o' /\ okm c n 1 x x' /\ okm c n n P P') NP.
Proof.
  intros Hn Hm (vH & vz & vR & vy & vS & vK & vSi & vHP & vPHt & vKHP) vx vP. unfold update_with_innovation.
  step (@mult_wp T). step (@mult_transb_wp T). step (@add_inplace_a_wp T).
  apply wp_bind. eapply wp_mono; [apply cholesky_wp; auto| |auto]. intros [fl Sm] [VS SS]; cbn [snd] in VS, SS.
  step (@invert_wp T). step (@mult_transb_wp T). step (@mult_wp T). step (@multadd_rowvector_wp T).
  step (@mult_wp T). step (@mult_wp T). step (@sub_inplace_a_wp T). cbn [wp].
  unfold ob_valid, ob_same_model, okm; cbn. fin.
Qed.

Lemma set_y_valid n m (o : observation T) y : ob_valid c n m o -> valid c m 1 y -> ob_valid c n m (set_y o y).
Proof. unfold ob_valid. cbn. tauto. Qed.

Lemma obs_correct_wp n m o x P : 1 <= n -> 1 <= m -> ob_valid c n m o -> valid c n 1 x -> valid c n n P ->
  wp (obs_correct c N n m o x P)
    (fun r => let '(o', x', P') := r in ob_valid c n m o' /\ ob_same_model o o' /\ okm c n 1 x x' /\ okm c n n P P') NP.
Proof.
  intros Hn Hm Ho vx vP. pose proof Ho as (vH & vz & vR & vy & _). unfold obs_correct.
  step (@mult_rowvector_wp T). step (@sub_inplace_b_wp T).
  eapply wp_mono; [apply update_wp; auto using set_y_valid| |auto]. intros [[o' x'] P'] (H1 & H2 & H3 & H4). fin.
Qed.
Lemma obs_correct_nonlinear_wp n m h o x P : 1 <= n -> 1 <= m -> ob_valid c n m o -> valid c n 1 x -> valid c n n P ->
  closure_ok c N m n h ->
  wp (obs_correct_nonlinear c N n m h o x P)
    (fun r => let '(o', x', P') := r in ob_valid c n m o' /\ ob_same_model o o' /\ okm c n 1 x x' /\ okm c n n P P') NP.
Proof.
  intros Hn Hm Ho vx vP Hh. pose proof Ho as (vH & vz & vR & vy & _). unfold obs_correct_nonlinear.
  apply wp_bind. eapply wp_mono; [apply Hh; auto| |auto]. intros y Vy.
  step (@sub_inplace_b_wp T).
  eapply wp_mono; [apply update_wp; auto using set_y_valid| |auto]. intros [[o' x'] P'] (H1 & H2 & H3 & H4). fin.
Qed.

Lemma correct_wp n m o f : 1 <= n -> 1 <= m -> ob_valid c n m o -> kf_valid c n f ->
  wp (correct c N n m o f)
    (fun r => let '(o', f') := r in ob_valid c n m o' /\ ob_same_model o o' /\ kf_valid c n f' /\ kf_same_model f f' /\ kf_same_tail n f f') NP.
Proof.
  intros Hn Hm Ho (vA & vx & vP & vQ & vpx & vtP). unfold correct. apply wp_bind.
  eapply wp_mono; [apply obs_correct_wp; auto| |auto]. intros [[k' x'] P'] (H1 & H2 & [H3 H4] & [H5 H6]). cbn [wp].
  unfold kf_valid, kf_same_model, kf_same_tail; cbn. fin.
Qed.
Lemma correct_nonlinear_wp n m h o f : 1 <= n -> 1 <= m -> ob_valid c n m o -> kf_valid c n f -> closure_ok c N m n h ->
  wp (correct_nonlinear c N n m h o f)
    (fun r => let '(o', f') := r in ob_valid c n m o' /\ ob_same_model o o' /\ kf_valid c n f' /\ kf_same_model f f' /\ kf_same_tail n f f') NP.
Proof.
  intros Hn Hm Ho (vA & vx & vP & vQ & vpx & vtP) Hh. unfold correct_nonlinear. apply wp_bind.
  eapply wp_mono; [apply obs_correct_nonlinear_wp; auto| |auto]. intros [[k' x'] P'] (H1 & H2 & [H3 H4] & [H5 H6]). cbn [wp].
  unfold kf_valid, kf_same_model, kf_same_tail; cbn. fin.
Qed.

End One.

(** ** two runs *)
Section Two.
Context {T : Type} (c : cfg) (N : num T).

Lemma mk_mrel R C (a b : list T) : valid c R C a -> valid c R C b -> same_matrix R C a b -> mrel c R C a b.
Proof. unfold mrel; auto. Qed.

Ltac step2 L := eapply rres_bind; [apply L; eauto using mk_mrel|];
  let l := fresh "l" in let l' := fresh "l'" in let V := fresh "V" in intros l l' V _ _;
  let V1 := fresh "V" in let V2 := fresh "V" in let V3 := fresh "V" in pose proof V as (V1 & V2 & V3).
Ltac open_kf H := destruct H as ((?vA & ?vx & ?vP & ?vQ & ?vpx & ?vtP) & (?vA & ?vx & ?vP & ?vQ & ?vpx & ?vtP) & (?sA & ?sx & ?sP & ?sQ)).
Ltac fin := repeat match goal with |- _ /\ _ => split end; auto.

Lemma predict_x_two n f g : 1 <= n -> kf_rel c n f g -> rres (kf_rel c n) (predict_x c N n f) (predict_x c N n g).
Proof.
  intros Hn H. open_kf H. unfold predict_x.
  step2 (@mult_rowvector_two T). step2 (@copy_to_two T). cbn [rres]. unfold kf_rel, kf_valid, kf_same; cbn. fin.
Qed.
Lemma predict_P_two n f g : kf_rel c n f g -> rres (kf_rel c n) (predict_P c N n f) (predict_P c N n g).
Proof.
  intros H. open_kf H. unfold predict_P.
  step2 (@mult_two T). step2 (@mult_transb_two T). step2 (@add_inplace_b_two T).
  cbn [rres]. unfold kf_rel, kf_valid, kf_same; cbn. fin.
Qed.
Lemma predict_P_tuned_two n lam f g : kf_rel c n f g -> rres (kf_rel c n) (predict_P_tuned c N n lam f) (predict_P_tuned c N n lam g).
Proof.
  intros H. open_kf H. unfold predict_P_tuned.
  eapply rres_bind; [apply rres_eq; reflexivity|]. intros l2 ? <- _ _.
  eapply rres_bind; [apply rres_eq; reflexivity|]. intros fac ? <- _ _.
  step2 (@mult_two T). step2 (@multscale_transb_two T). step2 (@add_inplace_b_two T).
  cbn [rres]. unfold kf_rel, kf_valid, kf_same; cbn. fin.
Qed.
Lemma predict_two n f g : 1 <= n -> kf_rel c n f g -> rres (kf_rel c n) (predict c N n f) (predict c N n g).
Proof.
  intros Hn H. unfold predict. eapply rres_bind; [apply predict_x_two; auto|]. intros. apply predict_P_two; auto.
Qed.
Lemma predict_tuned_two n lam f g : 1 <= n -> kf_rel c n f g -> rres (kf_rel c n) (predict_tuned c N n lam f) (predict_tuned c N n lam g).
Proof.
  intros Hn H. unfold predict_tuned. eapply rres_bind; [apply predict_x_two; auto|]. intros. apply predict_P_tuned_two; auto.
Qed.


Lemma apply_control_two n m k1 k2 x1 x2 P1 P2 : ct_rel c n m k1 k2 -> mrel c n 1 x1 x2 -> mrel c n n P1 P2 ->
  rres (fun r1 r2 => let '(k1', x1', P1') := r1 in let '(k2', x2', P2') := r2 in
          ct_rel c n m k1' k2' /\ mrel c n 1 x1' x2' /\ mrel c n n P1' P2')
    (apply_control c N n m k1 x1 P1) (apply_control c N n m k2 x2 P2).
Proof.
  intros Hk Hx HP. pose proof Hk as ((vB & vu & vQ & vBQ) & (vB' & vu' & vQ' & vBQ') & (sB & su & sQ)).
  unfold apply_control. rewrite (is_empty_valid c _ _ _ vu). cbn [bind]. rewrite Nat.mul_1_r.
  destruct (Nat.eqb_spec m 0) as [Hm|Hm]; cbn [bind]; [cbn [rres]; auto|].
  rewrite (is_empty_valid c _ _ _ vB). cbn [bind].
  destruct (Nat.eqb_spec (n * m) 0) as [Hn|Hn]; cbn [bind]; [cbn [rres]; auto|].
  assert (1 <= m) by lia.
  step2 (@multadd_rowvector_two T). step2 (@mult_two T). step2 (@multadd_transb_two T). cbn [rres].
  unfold ct_rel, ct_valid, ct_same; cbn. fin.
Qed.

Lemma control_two n m k1 k2 f g : ct_rel c n m k1 k2 -> kf_rel c n f g ->
  rres (fun r1 r2 => ct_rel c n m (fst r1) (fst r2) /\ kf_rel c n (snd r1) (snd r2))
    (control_ c N n m k1 f) (control_ c N n m k2 g).
Proof.
  intros Hk H. open_kf H. unfold control_.
  eapply rres_bind; [apply apply_control_two; eauto using mk_mrel|].
  intros [[k1' x1'] P1'] [[k2' x2'] P2'] (H1 & (?&?&?) & (?&?&?)) _ _. cbn [rres fst snd]. split; [auto|].
  unfold kf_rel, kf_valid, kf_same; cbn. fin.
Qed.

Lemma update_two n m o1 o2 x1 x2 P1 P2 : 1 <= n -> 1 <= m -> ob_rel c n m o1 o2 -> same_matrix m 1 (ob_y o1) (ob_y o2) ->
  mrel c n 1 x1 x2 -> mrel c n n P1 P2 ->
  rres (fun r1 r2 => let '(o1', x1', P1') := r1 in let '(o2', x2', P2') := r2 in
          ob_rel c n m o1' o2' /\ mrel c n 1 x1' x2' /\ mrel c n n P1' P2' /\
          same_matrix n m (ob_K o1') (ob_K o2') /\ same_matrix m 1 (ob_y o1') (ob_y o2'))
    (update_with_innovation c N n m o1 x1 P1) (update_with_innovation c N n m o2 x2 P2).
Proof.
  intros Hn Hm ((vH & vz & vR & vy & vS & vK & vSi & vHP & vPHt & vKHP) &
    (vH' & vz' & vR' & vy' & vS' & vK' & vSi' & vHP' & vPHt' & vKHP') & (sH & sz & sR)) Hy Hx HP.
  unfold update_with_innovation.
  step2 (@mult_two T). step2 (@mult_transb_two T). step2 (@add_inplace_a_two T).
  eapply rres_bind; [apply cholesky_two; auto|]. intros [fl1 S1] [fl2 S2] [_ VS] _ _. cbn [snd] in VS. pose proof VS as (?&?&?).
  step2 (@invert_two T). step2 (@mult_transb_two T). step2 (@mult_two T). step2 (@multadd_rowvector_two T).
  step2 (@mult_two T). step2 (@mult_two T). step2 (@sub_inplace_a_two T). cbn [rres].
  unfold ob_rel, ob_valid, ob_same; cbn. fin.
Qed.

Lemma obs_correct_two n m o1 o2 x1 x2 P1 P2 : 1 <= n -> 1 <= m -> ob_rel c n m o1 o2 ->
  mrel c n 1 x1 x2 -> mrel c n n P1 P2 ->
  rres (fun r1 r2 => let '(o1', x1', P1') := r1 in let '(o2', x2', P2') := r2 in
          ob_rel c n m o1' o2' /\ mrel c n 1 x1' x2' /\ mrel c n n P1' P2' /\
          same_matrix n m (ob_K o1') (ob_K o2') /\ same_matrix m 1 (ob_y o1') (ob_y o2'))
    (obs_correct c N n m o1 x1 P1) (obs_correct c N n m o2 x2 P2).
Proof.
  intros Hn Hm Ho Hx HP. pose proof Ho as ((vH & vz & vR & vy & _) & (vH' & vz' & vR' & vy' & _) & (sH & sz & sR)).
  unfold obs_correct. step2 (@mult_rowvector_two T). step2 (@sub_inplace_b_two T).
  apply update_two; auto. unfold ob_rel. destruct Ho as (H1 & H2 & H3). split; [|split; [|exact H3]]; apply set_y_valid; auto.
Qed.

Lemma correct_two n m o1 o2 f g : 1 <= n -> 1 <= m -> ob_rel c n m o1 o2 -> kf_rel c n f g ->
  rres (fun r1 r2 => ob_rel c n m (fst r1) (fst r2) /\ kf_rel c n (snd r1) (snd r2) /\
          same_matrix n m (ob_K (fst r1)) (ob_K (fst r2)) /\ same_matrix m 1 (ob_y (fst r1)) (ob_y (fst r2)))
    (correct c N n m o1 f) (correct c N n m o2 g).
Proof.
  intros Hn Hm Ho H. open_kf H. unfold correct.
  eapply rres_bind; [apply obs_correct_two; eauto using mk_mrel|].
  intros [[k1' x1'] P1'] [[k2' x2'] P2'] (H1 & (?&?&?) & (?&?&?) & ? & ?) _ _. cbn [rres fst snd]. split; [auto|].
  unfold kf_rel, kf_valid, kf_same; cbn. fin.
Qed.

Lemma predict_x_nl_two n (h1 h2 : list T -> list T -> res (list T)) (f g : kalman T) : 1 <= n -> closure_two c n n h1 h2 -> kf_rel c n f g ->
  rres (kf_rel c n) (predict_x_nonlinear c n h1 f) (predict_x_nonlinear c n h2 g).
Proof.
  intros Hn Hh H. open_kf H. unfold predict_x_nonlinear.
  step2 Hh. step2 (@copy_to_two T). cbn [rres]. unfold kf_rel, kf_valid, kf_same; cbn. fin.
Qed.
Lemma predict_nl_two n (h1 h2 : list T -> list T -> res (list T)) (f g : kalman T) : 1 <= n -> closure_two c n n h1 h2 -> kf_rel c n f g ->
  rres (kf_rel c n) (predict_nonlinear c N n h1 f) (predict_nonlinear c N n h2 g).
Proof.
  intros Hn Hh H. unfold predict_nonlinear. eapply rres_bind; [apply predict_x_nl_two; eauto|]. intros. apply predict_P_two; auto.
Qed.
Lemma predict_tuned_nl_two n lam (h1 h2 : list T -> list T -> res (list T)) (f g : kalman T) : 1 <= n -> closure_two c n n h1 h2 -> kf_rel c n f g ->
  rres (kf_rel c n) (predict_tuned_nonlinear c N n lam h1 f) (predict_tuned_nonlinear c N n lam h2 g).
Proof.
  intros Hn Hh H. unfold predict_tuned_nonlinear. eapply rres_bind; [apply predict_x_nl_two; eauto|]. intros. apply predict_P_tuned_two; auto.
Qed.
Lemma correct_nl_two n m (h1 h2 : list T -> list T -> res (list T)) (o1 o2 : observation T) (f g : kalman T) : 1 <= n -> 1 <= m -> closure_two c m n h1 h2 -> ob_rel c n m o1 o2 -> kf_rel c n f g ->
  rres (fun r1 r2 => ob_rel c n m (fst r1) (fst r2) /\ kf_rel c n (snd r1) (snd r2) /\
          same_matrix n m (ob_K (fst r1)) (ob_K (fst r2)) /\ same_matrix m 1 (ob_y (fst r1)) (ob_y (fst r2)))
    (correct_nonlinear c N n m h1 o1 f) (correct_nonlinear c N n m h2 o2 g).
Proof.
  intros Hn Hm Hh Ho H. open_kf H. unfold correct_nonlinear, obs_correct_nonlinear.
  pose proof Ho as ((vH & vz & vR & vy & _) & (vH' & vz' & vR' & vy' & _) & (sH & sz & sR)).
  eapply rres_bind.
  - step2 Hh. step2 (@sub_inplace_b_two T). apply update_two; eauto using mk_mrel.
    destruct Ho as (H1 & H2 & H3). split; [|split; [|exact H3]]; apply set_y_valid; auto.
  - intros [[k1' x1'] P1'] [[k2' x2'] P2'] (H1 & (?&?&?) & (?&?&?) & ? & ?) _ _. cbn [rres fst snd]. split; [auto|].
    unfold kf_rel, kf_valid, kf_same; cbn. fin.
Qed.

End Two.
