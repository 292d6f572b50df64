(** * Histories, two runs: scratch independence, linear closures, data independence *)
From Verif Require Import Spec Matrix Filter Extended SpecFilter History SpecGen Wp Kernels Access Chol Inv FilterGen FilterTwo HistGen.

Section Two.
Context {T : Type} (c : cfg) (N : num T) (n : nat).
Ltac fin := repeat match goal with |- _ /\ _ => split end; auto using st_refl.

Definition ctv_rel (v v' : nat * control T) : Prop := fst v = fst v' /\ ct_rel c n (fst v) (snd v) (snd v').
Definition obv_rel (v v' : nat * observation T) : Prop := fst v = fst v' /\ ob_rel c n (fst v) (snd v) (snd v').

Lemma rel_set_kf (w1 w2 : world T) f1 f2 : world_rel c n w1 w2 -> kf_rel c n f1 f2 -> world_rel c n (set_kf w1 f1) (set_kf w2 f2).
Proof. intros (H1 & H2 & H3) H. split; auto. Qed.
Lemma rel_set_ct (w1 w2 : world T) i m k1 k2 : world_rel c n w1 w2 -> ct_rel c n m k1 k2 -> world_rel c n (set_ct w1 i (m, k1)) (set_ct w2 i (m, k2)).
Proof. intros (H1 & H2 & H3) H. split; [auto|split; [|auto]]. apply Forall2_upd; auto. Qed.
Lemma rel_set_ob (w1 w2 : world T) i m k1 k2 : world_rel c n w1 w2 -> ob_rel c n m k1 k2 -> world_rel c n (set_ob w1 i (m, k1)) (set_ob w2 i (m, k2)).
Proof. intros (H1 & H2 & H3) H. split; [auto|split; [auto|]]. apply Forall2_upd; auto. Qed.

Lemma rel_ct_nth (w1 w2 : world T) i : world_rel c n w1 w2 ->
  match nth_error (w_ct w1) i, nth_error (w_ct w2) i with
  | Some (m1, k1), Some (m2, k2) => m1 = m2 /\ ct_rel c n m1 k1 k2 | None, None => True | _, _ => False end.
Proof.
  intros (_ & H & _). pose proof (Forall2_nth _ _ _ i H) as E. 
  destruct (nth_error (w_ct w1) i) as [[m1 k1]|], (nth_error (w_ct w2) i) as [[m2 k2]|]; auto.
Qed.
Lemma rel_ob_nth (w1 w2 : world T) i : world_rel c n w1 w2 ->
  match nth_error (w_ob w1) i, nth_error (w_ob w2) i with
  | Some (m1, k1), Some (m2, k2) => m1 = m2 /\ ob_rel c n m1 k1 k2 | None, None => True | _, _ => False end.
Proof.
  intros (_ & _ & H). pose proof (Forall2_nth _ _ _ i H) as E. 
  destruct (nth_error (w_ob w1) i) as [[m1 k1]|], (nth_error (w_ob w2) i) as [[m2 k2]|]; auto.
Qed.

Lemma kf_two (w1 w2 : world T) m1 m2 : world_rel c n w1 w2 -> rres (kf_rel c n) m1 m2 ->
  rres (world_rel c n) (bind m1 (fun f => Ok (set_kf w1 f))) (bind m2 (fun f => Ok (set_kf w2 f))).
Proof. intros Hw Hm. eapply rres_bind; [exact Hm|]. intros f1 f2 H _ _. cbn [rres]. apply rel_set_kf; auto. Qed.

Lemma ob_two (w1 w2 : world T) j m r1 r2 : world_rel c n w1 w2 ->
  rres (fun r1 r2 => ob_rel c n m (fst r1) (fst r2) /\ kf_rel c n (snd r1) (snd r2) /\
          same_matrix n m (ob_K (fst r1)) (ob_K (fst r2)) /\ same_matrix m 1 (ob_y (fst r1)) (ob_y (fst r2))) r1 r2 ->
  rres (world_rel c n) (bind r1 (fun r => let '(b, f) := r in Ok (set_ob (set_kf w1 f) j (m, b))))
                       (bind r2 (fun r => let '(b, f) := r in Ok (set_ob (set_kf w2 f) j (m, b)))).
Proof.
  intros Hw Hm. eapply rres_bind; [exact Hm|]. intros [b1 f1] [b2 f2] (H1 & H2 & _) _ _. cbn [rres fst snd] in *.
  apply rel_set_ob; auto. apply rel_set_kf; auto.
Qed.

Lemma step_two (w1 w2 : world T) o1 o2 : 1 <= n -> Forall (fun m => 1 <= m) (ob_dims w1) -> world_rel c n w1 w2 ->
  op_same c n (ob_dims w1) o1 o2 ->
  rres (world_rel c n) (step c N n w1 o1) (step c N n w2 o2).
Proof.
  intros Hn Hd Hw Ho. pose proof Hw as (Hf & _ & _).
  destruct o1 as [|lam|h|lam h|i|j|j h|l|l|l|l|i l|i l|i l|j l|j l|j l];
    [| | destruct o2; cbn [op_same] in Ho; try contradiction
       | destruct o2; cbn [op_same] in Ho; try contradiction; destruct Ho as [<- Ho] | |
       | destruct o2; cbn [op_same] in Ho; try contradiction; destruct Ho as [<- Ho] | | | | | | | | | | ];
    try (cbn [op_same] in Ho; subst o2); cbn [step].
  - apply kf_two; auto. apply predict_two; auto.
  - apply kf_two; auto. apply predict_tuned_two; auto.
  - apply kf_two; auto. apply predict_nl_two; auto.
  - apply kf_two; auto. apply predict_tuned_nl_two; auto.
  - pose proof (rel_ct_nth w1 w2 i Hw) as E. destruct (nth_error (w_ct w1) i) as [[m1 k1]|], (nth_error (w_ct w2) i) as [[m2 k2]|]; try contradiction; [|cbn [rres]; auto].
    destruct E as [<- E]. eapply rres_bind; [apply control_two; eauto|]. intros [k1' f1] [k2' f2] [H1 H2] _ _. cbn [rres fst snd] in *.
    apply rel_set_ct; auto. apply rel_set_kf; auto.
  - pose proof (rel_ob_nth w1 w2 j Hw) as E. destruct (nth_error (w_ob w1) j) as [[m1 k1]|] eqn:E1, (nth_error (w_ob w2) j) as [[m2 k2]|]; try contradiction; [|cbn [rres]; auto].
    destruct E as [<- E]. pose proof (Forall_nth _ _ _ _ Hd (ob_dims_nth _ _ _ _ E1)) as Hm. apply ob_two; auto. apply correct_two; auto.
  - pose proof (rel_ob_nth w1 w2 j Hw) as E. destruct (nth_error (w_ob w1) j) as [[m1 k1]|] eqn:E1, (nth_error (w_ob w2) j) as [[m2 k2]|]; try contradiction; [|cbn [rres]; auto].
    destruct E as [<- E]. pose proof (Forall_nth _ _ _ _ Hd (ob_dims_nth _ _ _ _ E1)) as Hm. rewrite (ob_dims_nth _ _ _ _ E1) in Ho.
    apply ob_two; auto. apply correct_nl_two; auto.
  - cbn [rres]. apply rel_set_kf; auto. destruct Hf as ((a1&a2&a3&a4&a5&a6) & (b1&b2&b3&b4&b5&b6) & (s1&s2&s3&s4)).
    unfold kf_rel, kf_valid, kf_same; cbn. fin; eauto using put_valid, put_same.
  - cbn [rres]. apply rel_set_kf; auto. destruct Hf as ((a1&a2&a3&a4&a5&a6) & (b1&b2&b3&b4&b5&b6) & (s1&s2&s3&s4)).
    unfold kf_rel, kf_valid, kf_same; cbn. fin; eauto using put_valid, put_same.
  - cbn [rres]. apply rel_set_kf; auto. destruct Hf as ((a1&a2&a3&a4&a5&a6) & (b1&b2&b3&b4&b5&b6) & (s1&s2&s3&s4)).
    unfold kf_rel, kf_valid, kf_same; cbn. fin; eauto using put_valid, put_same.
  - cbn [rres]. apply rel_set_kf; auto. destruct Hf as ((a1&a2&a3&a4&a5&a6) & (b1&b2&b3&b4&b5&b6) & (s1&s2&s3&s4)).
    unfold kf_rel, kf_valid, kf_same; cbn. fin; eauto using put_valid, put_same.
  - pose proof (rel_ct_nth w1 w2 i Hw) as E. destruct (nth_error (w_ct w1) i) as [[m1 k1]|], (nth_error (w_ct w2) i) as [[m2 k2]|]; try contradiction; cbn [rres]; auto.
    destruct E as [<- ((a1&a2&a3&a4) & (b1&b2&b3&b4) & (s1&s2&s3))]. apply rel_set_ct; auto.
    unfold ct_rel, ct_valid, ct_same; cbn. fin; eauto using put_valid, put_same.
  - pose proof (rel_ct_nth w1 w2 i Hw) as E. destruct (nth_error (w_ct w1) i) as [[m1 k1]|], (nth_error (w_ct w2) i) as [[m2 k2]|]; try contradiction; cbn [rres]; auto.
    destruct E as [<- ((a1&a2&a3&a4) & (b1&b2&b3&b4) & (s1&s2&s3))]. apply rel_set_ct; auto.
    unfold ct_rel, ct_valid, ct_same; cbn. fin; eauto using put_valid, put_same.
  - pose proof (rel_ct_nth w1 w2 i Hw) as E. destruct (nth_error (w_ct w1) i) as [[m1 k1]|], (nth_error (w_ct w2) i) as [[m2 k2]|]; try contradiction; cbn [rres]; auto.
    destruct E as [<- ((a1&a2&a3&a4) & (b1&b2&b3&b4) & (s1&s2&s3))]. apply rel_set_ct; auto.
    unfold ct_rel, ct_valid, ct_same; cbn. fin; eauto using put_valid, put_same.
  - pose proof (rel_ob_nth w1 w2 j Hw) as E. destruct (nth_error (w_ob w1) j) as [[m1 k1]|], (nth_error (w_ob w2) j) as [[m2 k2]|]; try contradiction; cbn [rres]; auto.
    destruct E as [<- ((a1&a2&a3&a4&a5&a6&a7&a8&a9&a10) & (b1&b2&b3&b4&b5&b6&b7&b8&b9&b10) & (s1&s2&s3))]. apply rel_set_ob; auto.
    unfold ob_rel, ob_valid, ob_same; cbn. fin; eauto using put_valid, put_same.
  - pose proof (rel_ob_nth w1 w2 j Hw) as E. destruct (nth_error (w_ob w1) j) as [[m1 k1]|], (nth_error (w_ob w2) j) as [[m2 k2]|]; try contradiction; cbn [rres]; auto.
    destruct E as [<- ((a1&a2&a3&a4&a5&a6&a7&a8&a9&a10) & (b1&b2&b3&b4&b5&b6&b7&b8&b9&b10) & (s1&s2&s3))]. apply rel_set_ob; auto.
    unfold ob_rel, ob_valid, ob_same; cbn. fin; eauto using put_valid, put_same.
  - pose proof (rel_ob_nth w1 w2 j Hw) as E. destruct (nth_error (w_ob w1) j) as [[m1 k1]|], (nth_error (w_ob w2) j) as [[m2 k2]|]; try contradiction; cbn [rres]; auto.
    destruct E as [<- ((a1&a2&a3&a4&a5&a6&a7&a8&a9&a10) & (b1&b2&b3&b4&b5&b6&b7&b8&b9&b10) & (s1&s2&s3))]. apply rel_set_ob; auto.
    unfold ob_rel, ob_valid, ob_same; cbn. fin; eauto using put_valid, put_same.
Qed.

(** dimensions never change *)
Lemma step_dims (w : world T) o w' : step c N n w o = Ok w' -> ct_dims w' = ct_dims w /\ ob_dims w' = ob_dims w.
Proof.
  assert (HC : forall (w : world T) i m k k', nth_error (w_ct w) i = Some (m, k) -> ct_dims (set_ct w i (m, k')) = ct_dims w).
  { intros u i m k k' E. unfold ct_dims; cbn. eapply map_upd; [exact E|reflexivity]. }
  assert (HO : forall (w : world T) i m k k', nth_error (w_ob w) i = Some (m, k) -> ob_dims (set_ob w i (m, k')) = ob_dims w).
  { intros u i m k k' E. unfold ob_dims; cbn. eapply map_upd; [exact E|reflexivity]. }
  intros H. destruct o as [|lam|h|lam h|i|j|j h|l|l|l|l|i l|i l|i l|j l|j l|j l]; cbn [step] in H;
  try (match type of H with bind ?m _ = _ => destruct m as [f|]; cbn [bind] in H; [|discriminate]; injection H as <-; split; reflexivity end);
  try (injection H as <-; split; reflexivity);
  repeat match type of H with match nth_error ?l ?i with _ => _ end = _ =>
    let E := fresh "E" in destruct (nth_error l i) as [[m k]|] eqn:E; [|injection H as <-; split; reflexivity] end;
  try (match type of H with bind ?m _ = _ => destruct m as [[k' f']|]; cbn [bind] in H; [|discriminate] end);
  injection H as <-; (split; [first [reflexivity|eapply (HC (set_kf w _)); exact E|eapply HC; exact E]
                             |first [reflexivity|eapply (HO (set_kf w _)); exact E|eapply HO; exact E]]).
Qed.

Lemma run_two (w1 w2 : world T) os1 os2 : 1 <= n -> Forall (fun m => 1 <= m) (ob_dims w1) -> world_rel c n w1 w2 ->
  Forall2 (op_same c n (ob_dims w1)) os1 os2 ->
  rres (world_rel c n) (run c N n w1 os1) (run c N n w2 os2).
Proof.
  intros Hn Hd Hw Ho. revert w1 w2 Hd Hw Ho. revert os2. induction os1 as [|o1 os1 IH]; intros os2 w1 w2 Hd Hw Ho.
  - inversion Ho; subst. cbn [run rres]. auto.
  - inversion Ho as [|? o2 ? os2' Ho1 Ho2]; subst. cbn [run]. eapply rres_bind; [apply step_two; auto|].
    intros w1' w2' Hw' E1 E2. destruct (step_dims w1 o1 w1' E1) as [_ D]. apply IH; [rewrite D; auto|auto|rewrite D; auto].
Qed.

(** ** the extended filter with linear closures *)
Lemma step_linear (w1 w2 : world T) o1 o2 : 1 <= n -> Forall (fun m => 1 <= m) (ob_dims w1) -> world_rel c n w1 w2 ->
  op_linear c N n w1 o1 o2 ->
  rres (world_rel c n) (step c N n w1 o1) (step c N n w2 o2).
Proof.
  intros Hn Hd Hw Ho. pose proof Hw as (Hf & _ & _).
  destruct o1 as [|lam|h|lam h|i|j|j h|l|l|l|l|i l|i l|i l|j l|j l|j l];
  try (apply step_two; auto; fail).
  - destruct o2; cbn [op_linear] in Ho; try contradiction. cbn [step]. apply kf_two; auto.
    exact (predict_nl_two c N n _ _ _ _ Hn Ho Hf).
  - destruct o2; cbn [op_linear] in Ho; try contradiction. destruct Ho as [<- Ho]. cbn [step]. apply kf_two; auto.
    exact (predict_tuned_nl_two c N n lam _ _ _ _ Hn Ho Hf).
  - destruct o2; cbn [op_linear] in Ho; try contradiction. destruct Ho as [<- Ho]. cbn [step].
    pose proof (rel_ob_nth w1 w2 j Hw) as E. destruct (nth_error (w_ob w1) j) as [[m1 k1]|] eqn:E1, (nth_error (w_ob w2) j) as [[m2 k2]|]; try contradiction; [|cbn [rres]; auto].
    destruct E as [<- E]. pose proof (Forall_nth _ _ _ _ Hd (ob_dims_nth _ _ _ _ E1)) as Hm. apply ob_two; auto.
    exact (correct_nl_two c N n m1 _ _ _ _ _ _ Hn Hm Ho E Hf).
Qed.
Lemma run_linear (w1 w2 : world T) os1 os2 : 1 <= n -> Forall (fun m => 1 <= m) (ob_dims w1) -> world_rel c n w1 w2 ->
  ops_linear c N n w1 os1 os2 ->
  rres (world_rel c n) (run c N n w1 os1) (run c N n w2 os2).
Proof.
  intros Hn. revert w1 w2 os2. induction os1 as [|o1 os1 IH]; intros w1 w2 os2 Hd Hw Ho; destruct os2 as [|o2 os2]; cbn [ops_linear] in Ho; try contradiction.
  - cbn [run rres]. auto.
  - destruct Ho as [Ho1 Ho2]. cbn [run]. eapply rres_bind; [apply step_linear; auto|].
    intros w1' w2' Hw' E1 E2. destruct (step_dims w1 o1 w1' E1) as [_ D]. apply IH; [rewrite D; auto|auto|auto].
Qed.
(** the obvious closure qualifies *)
Lemma mult_rowvector_closure m (A1 A2 : list T) : 1 <= n -> mrel c m n A1 A2 -> closure_two c m n (mult_rowvector c N m n A1) (mult_rowvector c N m n A2).
Proof.
  intros Hn HA x1 x2 o1 o2 Hx V1 V2. apply mult_rowvector_two; auto.
Qed.

End Two.

(** ** data independence *)
Section Cov.
Context {T : Type} (c : cfg) (N : num T).
Ltac fin := repeat match goal with |- _ /\ _ => split end; auto using st_refl.

Lemma rok_bind {A B A' B'} (Rel : A -> B -> Prop) (Rel' : A' -> B' -> Prop) m1 m2 k1 k2 :
  rok Rel m1 m2 -> (forall a b, Rel a b -> m1 = Ok a -> m2 = Ok b -> rok Rel' (k1 a) (k2 b)) -> rok Rel' (bind m1 k1) (bind m2 k2).
Proof. destruct m1 as [a|p], m2 as [b|q]; simpl; auto. intros _ _. destruct (k1 a); exact I. Qed.
Lemma rres_rok {A B} (Rel : A -> B -> Prop) m1 m2 : rres Rel m1 m2 -> rok Rel m1 m2.
Proof. destruct m1, m2; simpl; auto; contradiction. Qed.
Lemma rrok_bind {A B A' B'} (Rel : A -> B -> Prop) (Rel' : A' -> B' -> Prop) m1 m2 k1 k2 :
  rres Rel m1 m2 -> (forall a b, Rel a b -> m1 = Ok a -> m2 = Ok b -> rok Rel' (k1 a) (k2 b)) -> rok Rel' (bind m1 k1) (bind m2 k2).
Proof. intros H. apply rok_bind, rres_rok, H. Qed.
Lemma wp_rok {A B} (Q1 : A -> Prop) (Q2 : B -> Prop) m1 m2 E1 E2 : wp m1 Q1 E1 -> wp m2 Q2 E2 -> rok (fun a b => Q1 a /\ Q2 b) m1 m2.
Proof. destruct m1, m2; simpl; auto. Qed.
Lemma rok_mono {A B} (R1 R2 : A -> B -> Prop) m1 m2 : rok R1 m1 m2 -> (forall a b, R1 a b -> R2 a b) -> rok R2 m1 m2.
Proof. destruct m1, m2; simpl; auto. Qed.

Lemma mk_mrel' R C (a b : list T) : valid c R C a -> valid c R C b -> same_matrix R C a b -> mrel c R C a b.
Proof. unfold mrel; auto. Qed.

Ltac stpr L := eapply rrok_bind; [apply L; eauto using mk_mrel'|];
  let l := fresh "l" in let l' := fresh "l'" in let V := fresh "V" in intros l l' V _ _;
  let V1 := fresh "V" in let V2 := fresh "V" in let V3 := fresh "V" in pose proof V as (V1 & V2 & V3).
Ltac stepv L := eapply rok_bind; [eapply wp_rok; [eapply (L _ c N); eauto|eapply (L _ c N); eauto]|];
  let l := fresh "l" in let l' := fresh "l'" in intros l l' [[? ?] [? ?]] _ _.
Ltac open_kf H := destruct H as ((?vA & ?vx & ?vP & ?vQ & ?vpx & ?vtP) & (?vA & ?vx & ?vP & ?vQ & ?vpx & ?vtP) & (?sA & ?sP & ?sQ)).

Lemma predict_x_cov n (f g : kalman T) : 1 <= n -> kf_cov c n f g -> rok (kf_cov c n) (predict_x c N n f) (predict_x c N n g).
Proof.
  intros Hn H. open_kf H. unfold predict_x. stepv (@mult_rowvector_wp). stepv (@copy_to_wp). cbn [rok].
  unfold kf_cov, kf_valid; cbn. fin.
Qed.
Lemma predict_P_cov n (f g : kalman T) : kf_cov c n f g -> rok (kf_cov c n) (predict_P c N n f) (predict_P c N n g).
Proof.
  intros H. open_kf H. unfold predict_P. stpr (@mult_two T). stpr (@mult_transb_two T). stpr (@add_inplace_b_two T).
  cbn [rok]. unfold kf_cov, kf_valid; cbn. fin.
Qed.
Lemma predict_P_tuned_cov n lam (f g : kalman T) : kf_cov c n f g -> rok (kf_cov c n) (predict_P_tuned c N n lam f) (predict_P_tuned c N n lam g).
Proof.
  intros H. open_kf H. unfold predict_P_tuned.
  eapply rok_bind; [apply rres_rok, rres_eq; reflexivity|]. intros l2 ? <- _ _.
  eapply rok_bind; [apply rres_rok, rres_eq; reflexivity|]. intros fac ? <- _ _.
  stpr (@mult_two T). stpr (@multscale_transb_two T). stpr (@add_inplace_b_two T).
  cbn [rok]. unfold kf_cov, kf_valid; cbn. fin.
Qed.
Lemma predict_cov n (f g : kalman T) : 1 <= n -> kf_cov c n f g -> rok (kf_cov c n) (predict c N n f) (predict c N n g).
Proof. intros Hn H. unfold predict. eapply rok_bind; [apply predict_x_cov; auto|]. intros. apply predict_P_cov; auto. Qed.
Lemma predict_tuned_cov n lam (f g : kalman T) : 1 <= n -> kf_cov c n f g -> rok (kf_cov c n) (predict_tuned c N n lam f) (predict_tuned c N n lam g).
Proof. intros Hn H. unfold predict_tuned. eapply rok_bind; [apply predict_x_cov; auto|]. intros. apply predict_P_tuned_cov; auto. Qed.

Lemma predict_x_nl_cov n h1 h2 (f g : kalman T) : 1 <= n -> closure_ok c N n n h1 -> closure_ok c N n n h2 -> kf_cov c n f g ->
  rok (kf_cov c n) (predict_x_nonlinear c n h1 f) (predict_x_nonlinear c n h2 g).
Proof.
  intros Hn C1 C2 H. open_kf H. unfold predict_x_nonlinear.
  eapply rok_bind; [eapply wp_rok; [apply C1; auto|apply C2; auto]|]. intros p1 p2 [? ?] _ _.
  stepv (@copy_to_wp). cbn [rok]. unfold kf_cov, kf_valid; cbn. fin.
Qed.
Lemma predict_nl_cov n h1 h2 (f g : kalman T) : 1 <= n -> closure_ok c N n n h1 -> closure_ok c N n n h2 -> kf_cov c n f g ->
  rok (kf_cov c n) (predict_nonlinear c N n h1 f) (predict_nonlinear c N n h2 g).
Proof. intros Hn C1 C2 H. unfold predict_nonlinear. eapply rok_bind; [apply predict_x_nl_cov; auto|]. intros. apply predict_P_cov; auto. Qed.
Lemma predict_tuned_nl_cov n lam h1 h2 (f g : kalman T) : 1 <= n -> closure_ok c N n n h1 -> closure_ok c N n n h2 -> kf_cov c n f g ->
  rok (kf_cov c n) (predict_tuned_nonlinear c N n lam h1 f) (predict_tuned_nonlinear c N n lam h2 g).
Proof. intros Hn C1 C2 H. unfold predict_tuned_nonlinear. eapply rok_bind; [apply predict_x_nl_cov; auto|]. intros. apply predict_P_tuned_cov; auto. Qed.

Lemma control_cov n m (k1 k2 : control T) (f g : kalman T) : ct_cov c n m k1 k2 -> kf_cov c n f g ->
  rok (fun r1 r2 => ct_cov c n m (fst r1) (fst r2) /\ kf_cov c n (snd r1) (snd r2)) (control_ c N n m k1 f) (control_ c N n m k2 g).
Proof.
  intros Hk H. pose proof Hk as ((vB & vu & vQq & vBQ) & (vB' & vu' & vQq' & vBQ') & (sB & sQq)). pose proof H as H'. open_kf H.
  unfold control_, apply_control. rewrite (is_empty_valid c _ _ _ vu). cbn [bind]. rewrite Nat.mul_1_r.
  destruct (Nat.eqb_spec m 0) as [Hm|Hm]; cbn [bind rok fst snd]; [split; [auto|]; unfold kf_cov, kf_valid; cbn; fin|].
  rewrite (is_empty_valid c _ _ _ vB). cbn [bind].
  destruct (Nat.eqb_spec (n * m) 0) as [Hnn|Hnn]; cbn [bind rok fst snd]; [split; [auto|]; unfold kf_cov, kf_valid; cbn; fin|].
  assert (1 <= m) by lia. rewrite !bind_assoc.
  stepv (@multadd_rowvector_wp). rewrite !bind_assoc. stpr (@mult_two T). rewrite !bind_assoc. stpr (@multadd_transb_two T). cbn [bind rok fst snd].
  unfold ct_cov, ct_valid, kf_cov, kf_valid; cbn. fin.
Qed.

Definition upd_cov n m (r1 r2 : observation T * list T * list T) : Prop :=
  let '(o1, x1, P1) := r1 in let '(o2, x2, P2) := r2 in
  ob_cov c n m o1 o2 /\ valid c n 1 x1 /\ valid c n 1 x2 /\ mrel c n n P1 P2 /\ same_matrix n m (ob_K o1) (ob_K o2).

Lemma update_cov n m (o1 o2 : observation T) x1 x2 P1 P2 : 1 <= n -> 1 <= m -> ob_cov c n m o1 o2 ->
  valid c n 1 x1 -> valid c n 1 x2 -> mrel c n n P1 P2 ->
  rok (upd_cov n m) (update_with_innovation c N n m o1 x1 P1) (update_with_innovation c N n m o2 x2 P2).
Proof.
  intros Hn Hm ((vH & vz & vR & vy & vS & vK & vSi & vHP & vPHt & vKHP) &
    (vH' & vz' & vR' & vy' & vS' & vK' & vSi' & vHP' & vPHt' & vKHP') & (sH & sR)) Vx1 Vx2 HP.
  unfold update_with_innovation.
  stpr (@mult_two T). stpr (@mult_transb_two T). stpr (@add_inplace_a_two T).
  eapply rok_bind; [apply rres_rok, cholesky_two; eauto|]. intros [fl1 S1] [fl2 S2] [_ VS] _ _. cbn [snd] in VS. pose proof VS as (?&?&?).
  stpr (@invert_two T). stpr (@mult_transb_two T). stpr (@mult_two T). stepv (@multadd_rowvector_wp).
  stpr (@mult_two T). stpr (@mult_two T). stpr (@sub_inplace_a_two T). cbn [rok].
  unfold upd_cov, ob_cov, ob_valid; cbn. fin.
Qed.

Lemma set_y_cov n m (o1 o2 : observation T) y1 y2 : ob_cov c n m o1 o2 -> valid c m 1 y1 -> valid c m 1 y2 -> ob_cov c n m (set_y o1 y1) (set_y o2 y2).
Proof. intros (H1 & H2 & H3) V1 V2. split; [apply set_y_valid; auto|]. split; [apply set_y_valid; auto|exact H3]. Qed.


Lemma correct_cov n m (o1 o2 : observation T) (f g : kalman T) : 1 <= n -> 1 <= m -> ob_cov c n m o1 o2 -> kf_cov c n f g ->
  rok (cor_cov c n m) (correct c N n m o1 f) (correct c N n m o2 g).
Proof.
  intros Hn Hm Ho H. open_kf H. pose proof Ho as ((vH & vz & vR & vy & _) & (vH' & vz' & vR' & vy' & _) & _).
  unfold correct, obs_correct. eapply rok_bind.
  - stepv (@mult_rowvector_wp). stepv (@sub_inplace_b_wp). apply update_cov; auto using mk_mrel', set_y_cov.
  - intros [[k1' x1'] P1'] [[k2' x2'] P2'] (H1 & ? & ? & (?&?&?) & ?) _ _. cbn [rok]. unfold cor_cov, kf_cov, kf_valid; cbn [fst snd kf_A kf_x kf_P kf_Q kf_px kf_tP]. fin.
Qed.
Lemma correct_nl_cov n m h1 h2 (o1 o2 : observation T) (f g : kalman T) : 1 <= n -> 1 <= m -> closure_ok c N m n h1 -> closure_ok c N m n h2 ->
  ob_cov c n m o1 o2 -> kf_cov c n f g ->
  rok (cor_cov c n m) (correct_nonlinear c N n m h1 o1 f) (correct_nonlinear c N n m h2 o2 g).
Proof.
  intros Hn Hm C1 C2 Ho H. open_kf H. pose proof Ho as ((vH & vz & vR & vy & _) & (vH' & vz' & vR' & vy' & _) & _).
  unfold correct_nonlinear, obs_correct_nonlinear. eapply rok_bind.
  - eapply rok_bind; [eapply wp_rok; [apply C1; auto|apply C2; auto]|]. intros p1 p2 [? ?] _ _.
    stepv (@sub_inplace_b_wp). apply update_cov; auto using mk_mrel', set_y_cov.
  - intros [[k1' x1'] P1'] [[k2' x2'] P2'] (H1 & ? & ? & (?&?&?) & ?) _ _. cbn [rok]. unfold cor_cov, kf_cov, kf_valid; cbn [fst snd kf_A kf_x kf_P kf_Q kf_px kf_tP]. fin.
Qed.

Context (n : nat).
Lemma cov_set_kf (w1 w2 : world T) f1 f2 : world_cov c n w1 w2 -> kf_cov c n f1 f2 -> world_cov c n (set_kf w1 f1) (set_kf w2 f2).
Proof. intros (H1 & H2 & H3) H. split; auto. Qed.
Lemma cov_set_ct (w1 w2 : world T) i m k1 k2 : world_cov c n w1 w2 -> ct_cov c n m k1 k2 -> world_cov c n (set_ct w1 i (m, k1)) (set_ct w2 i (m, k2)).
Proof. intros (H1 & H2 & H3) H. split; [auto|split; [|auto]]. apply Forall2_upd; auto. Qed.
Lemma cov_set_ob (w1 w2 : world T) i m k1 k2 : world_cov c n w1 w2 -> ob_cov c n m k1 k2 -> world_cov c n (set_ob w1 i (m, k1)) (set_ob w2 i (m, k2)).
Proof. intros (H1 & H2 & H3) H. split; [auto|split; [auto|]]. apply Forall2_upd; auto. Qed.
Lemma cov_ct_nth (w1 w2 : world T) i : world_cov c n w1 w2 ->
  match nth_error (w_ct w1) i, nth_error (w_ct w2) i with
  | Some (m1, k1), Some (m2, k2) => m1 = m2 /\ ct_cov c n m1 k1 k2 | None, None => True | _, _ => False end.
Proof.
  intros (_ & H & _). pose proof (Forall2_nth _ _ _ i H) as E. 
  destruct (nth_error (w_ct w1) i) as [[m1 k1]|], (nth_error (w_ct w2) i) as [[m2 k2]|]; auto.
Qed.
Lemma cov_ob_nth (w1 w2 : world T) i : world_cov c n w1 w2 ->
  match nth_error (w_ob w1) i, nth_error (w_ob w2) i with
  | Some (m1, k1), Some (m2, k2) => m1 = m2 /\ ob_cov c n m1 k1 k2 | None, None => True | _, _ => False end.
Proof.
  intros (_ & _ & H). pose proof (Forall2_nth _ _ _ i H) as E. 
  destruct (nth_error (w_ob w1) i) as [[m1 k1]|], (nth_error (w_ob w2) i) as [[m2 k2]|]; auto.
Qed.
Lemma kf_cov2 (w1 w2 : world T) m1 m2 : world_cov c n w1 w2 -> rok (kf_cov c n) m1 m2 ->
  rok (world_cov c n) (bind m1 (fun f => Ok (set_kf w1 f))) (bind m2 (fun f => Ok (set_kf w2 f))).
Proof. intros Hw Hm. eapply rok_bind; [exact Hm|]. intros f1 f2 H _ _. cbn [rok]. apply cov_set_kf; auto. Qed.
Lemma ob_cov2 (w1 w2 : world T) j m r1 r2 : world_cov c n w1 w2 -> rok (cor_cov c n m) r1 r2 ->
  rok (world_cov c n) (bind r1 (fun r => let '(b, f) := r in Ok (set_ob (set_kf w1 f) j (m, b))))
                       (bind r2 (fun r => let '(b, f) := r in Ok (set_ob (set_kf w2 f) j (m, b)))).
Proof.
  intros Hw Hm. eapply rok_bind; [exact Hm|]. intros [b1 f1] [b2 f2] (H1 & H2 & _) _ _. cbn [rok fst snd] in *.
  apply cov_set_ob; auto. apply cov_set_kf; auto.
Qed.

Lemma step_cov (w1 w2 : world T) o1 o2 : 1 <= n -> Forall (fun m => 1 <= m) (ob_dims w1) -> world_cov c n w1 w2 ->
  op_cov o1 o2 -> op_safe c N n (ob_dims w1) o1 -> op_safe c N n (ob_dims w1) o2 ->
  rok (world_cov c n) (step c N n w1 o1) (step c N n w2 o2).
Proof.
  intros Hn Hd Hw Ho S1 S2. pose proof Hw as (Hf & _ & _).
  destruct o1 as [|lam|h|lam h|i|j|j h|l|l|l|l|i l|i l|i l|j l|j l|j l];
    destruct o2; cbn [op_cov] in Ho; try discriminate Ho; try (injection Ho; intros; subst); try subst; cbn [step op_safe] in *.
  - apply kf_cov2; auto. apply predict_cov; auto.
  - apply kf_cov2; auto. apply predict_tuned_cov; auto.
  - apply kf_cov2; auto. apply predict_nl_cov; auto.
  - apply kf_cov2; auto. apply predict_tuned_nl_cov; auto.
  - pose proof (cov_ct_nth w1 w2 i0 Hw) as E. destruct (nth_error (w_ct w1) i0) as [[m1 k1]|], (nth_error (w_ct w2) i0) as [[m2 k2]|]; try contradiction; [|cbn [rok]; auto].
    destruct E as [<- E]. eapply rok_bind; [apply control_cov; eauto|]. intros [k1' f1] [k2' f2] [H1 H2] _ _. cbn [rok fst snd] in *.
    apply cov_set_ct; auto. apply cov_set_kf; auto.
  - pose proof (cov_ob_nth w1 w2 j0 Hw) as E. destruct (nth_error (w_ob w1) j0) as [[m1 k1]|] eqn:E1, (nth_error (w_ob w2) j0) as [[m2 k2]|]; try contradiction; [|cbn [rok]; auto].
    destruct E as [<- E]. pose proof (Forall_nth _ _ _ _ Hd (ob_dims_nth _ _ _ _ E1)) as Hm. apply ob_cov2; auto. apply correct_cov; auto.
  - pose proof (cov_ob_nth w1 w2 j0 Hw) as E. destruct (nth_error (w_ob w1) j0) as [[m1 k1]|] eqn:E1, (nth_error (w_ob w2) j0) as [[m2 k2]|]; try contradiction; [|cbn [rok]; auto].
    destruct E as [<- E]. pose proof (Forall_nth _ _ _ _ Hd (ob_dims_nth _ _ _ _ E1)) as Hm. rewrite (ob_dims_nth _ _ _ _ E1) in S1, S2.
    apply ob_cov2; auto. apply correct_nl_cov; auto.
  - cbn [rok]. apply cov_set_kf; auto. destruct Hf as ((a1&a2&a3&a4&a5&a6) & (b1&b2&b3&b4&b5&b6) & (s1&s2&s3)).
    unfold kf_cov, kf_valid; cbn. fin; eauto using put_valid, put_same.
  - cbn [rok]. apply cov_set_kf; auto. destruct Hf as ((a1&a2&a3&a4&a5&a6) & (b1&b2&b3&b4&b5&b6) & (s1&s2&s3)).
    unfold kf_cov, kf_valid; cbn. fin; eauto using put_valid, put_same.
  - cbn [rok]. apply cov_set_kf; auto. destruct Hf as ((a1&a2&a3&a4&a5&a6) & (b1&b2&b3&b4&b5&b6) & (s1&s2&s3)).
    unfold kf_cov, kf_valid; cbn. fin; eauto using put_valid, put_same.
  - cbn [rok]. apply cov_set_kf; auto. destruct Hf as ((a1&a2&a3&a4&a5&a6) & (b1&b2&b3&b4&b5&b6) & (s1&s2&s3)).
    unfold kf_cov, kf_valid; cbn. fin; eauto using put_valid, put_same.
  - pose proof (cov_ct_nth w1 w2 i0 Hw) as E. destruct (nth_error (w_ct w1) i0) as [[m1 k1]|], (nth_error (w_ct w2) i0) as [[m2 k2]|]; try contradiction; cbn [rok]; auto.
    destruct E as [<- ((a1&a2&a3&a4) & (b1&b2&b3&b4) & (s1&s2))]. apply cov_set_ct; auto.
    unfold ct_cov, ct_valid; cbn. fin; eauto using put_valid, put_same.
  - pose proof (cov_ct_nth w1 w2 i0 Hw) as E. destruct (nth_error (w_ct w1) i0) as [[m1 k1]|], (nth_error (w_ct w2) i0) as [[m2 k2]|]; try contradiction; cbn [rok]; auto.
    destruct E as [<- ((a1&a2&a3&a4) & (b1&b2&b3&b4) & (s1&s2))]. apply cov_set_ct; auto.
    unfold ct_cov, ct_valid; cbn. fin; eauto using put_valid, put_same.
  - pose proof (cov_ct_nth w1 w2 i0 Hw) as E. destruct (nth_error (w_ct w1) i0) as [[m1 k1]|], (nth_error (w_ct w2) i0) as [[m2 k2]|]; try contradiction; cbn [rok]; auto.
    destruct E as [<- ((a1&a2&a3&a4) & (b1&b2&b3&b4) & (s1&s2))]. apply cov_set_ct; auto.
    unfold ct_cov, ct_valid; cbn. fin; eauto using put_valid, put_same.
  - pose proof (cov_ob_nth w1 w2 j0 Hw) as E. destruct (nth_error (w_ob w1) j0) as [[m1 k1]|], (nth_error (w_ob w2) j0) as [[m2 k2]|]; try contradiction; cbn [rok]; auto.
    destruct E as [<- ((a1&a2&a3&a4&a5&a6&a7&a8&a9&a10) & (b1&b2&b3&b4&b5&b6&b7&b8&b9&b10) & (s1&s2))]. apply cov_set_ob; auto.
    unfold ob_cov, ob_valid; cbn. fin; eauto using put_valid, put_same.
  - pose proof (cov_ob_nth w1 w2 j0 Hw) as E. destruct (nth_error (w_ob w1) j0) as [[m1 k1]|], (nth_error (w_ob w2) j0) as [[m2 k2]|]; try contradiction; cbn [rok]; auto.
    destruct E as [<- ((a1&a2&a3&a4&a5&a6&a7&a8&a9&a10) & (b1&b2&b3&b4&b5&b6&b7&b8&b9&b10) & (s1&s2))]. apply cov_set_ob; auto.
    unfold ob_cov, ob_valid; cbn. fin; eauto using put_valid, put_same.
  - pose proof (cov_ob_nth w1 w2 j0 Hw) as E. destruct (nth_error (w_ob w1) j0) as [[m1 k1]|], (nth_error (w_ob w2) j0) as [[m2 k2]|]; try contradiction; cbn [rok]; auto.
    destruct E as [<- ((a1&a2&a3&a4&a5&a6&a7&a8&a9&a10) & (b1&b2&b3&b4&b5&b6&b7&b8&b9&b10) & (s1&s2))]. apply cov_set_ob; auto.
    unfold ob_cov, ob_valid; cbn. fin; eauto using put_valid, put_same.
Qed.

Lemma run_cov (w1 w2 : world T) os1 os2 : 1 <= n -> Forall (fun m => 1 <= m) (ob_dims w1) -> world_cov c n w1 w2 ->
  Forall2 op_cov os1 os2 -> Forall (op_safe c N n (ob_dims w1)) os1 -> Forall (op_safe c N n (ob_dims w1)) os2 ->
  rok (world_cov c n) (run c N n w1 os1) (run c N n w2 os2).
Proof.
  intros Hn Hd Hw Ho. revert w1 w2 Hd Hw. induction Ho as [|o1 o2 os1 os2 Ho1 Ho2 IH]; intros w1 w2 Hd Hw S1 S2.
  - cbn [run rok]. auto.
  - inversion S1; subst. inversion S2; subst. cbn [run]. eapply rok_bind; [apply step_cov; auto|].
    intros w1' w2' Hw' E1 E2. destruct (step_dims c N n w1 o1 w1' E1) as [_ D]. apply IH; [rewrite D; auto|auto|rewrite D; auto|rewrite D; auto].
Qed.
End Cov.
