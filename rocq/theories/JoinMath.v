(** * Unrelated systems in one filter do not influence each other (C91) *)
From Verif Require Import Spec Matrix Filter Extended SpecFilter History SpecGen SpecExact SpecHistory SpecWorld SpecJoin Zmod Psd KMath HistGen FilterExact HistExact WorldMath.
From mathcomp Require Import all_ssreflect all_algebra.
Set Implicit Arguments.
Unset Strict Implicit.
Unset Printing Implicit Defensive.
Import Order.TTheory GRing.Theory Num.Theory.
Local Open Scope ring_scope.

Section JoinMath.
Variable R : rcfType.
Section Two.
Variables n1 n2 : nat.
Local Notation diag2 := (@diag2 R n1 n2).
Local Notation join_est := (@join_est R n1 n2).
Local Notation join := (@join R n1 n2).

Lemma diag2_congr (A1 P1 Q1 : 'M[R]_n1) (A2 P2 Q2 : 'M[R]_n2) (a : R) :
  a *: (diag2 A1 A2 *m diag2 P1 P2 *m (diag2 A1 A2)^T) + diag2 Q1 Q2 = diag2 (a *: (A1 *m P1 *m A1^T) + Q1) (a *: (A2 *m P2 *m A2^T) + Q2).
Proof.
rewrite /diag2 tr_block_mx !mulmx_block !trmx0 ?mul0mx ?mulmx0 ?addr0 ?add0r ?mul0mx ?mulmx0 ?addr0 ?add0r.
by rewrite scale_block_mx add_block_mx !scaler0 !addr0.
Qed.
Lemma diag2_mul (A1 : 'M[R]_n1) (A2 : 'M[R]_n2) (x1 : 'cV[R]_n1) x2 : diag2 A1 A2 *m col_mx x1 x2 = col_mx (A1 *m x1) (A2 *m x2).
Proof. by rewrite /diag2 mul_block_col !mul0mx addr0 add0r. Qed.
Lemma predict_join A1 A2 Q1 Q2 s1 s2 : t_predict (diag2 A1 A2) (diag2 Q1 Q2) (join_est s1 s2) = join_est (t_predict A1 Q1 s1) (t_predict A2 Q2 s2).
Proof.
rewrite /t_predict /join_est /=; congr Est; first exact: diag2_mul.
by have := diag2_congr A1 (e_P s1) Q1 A2 (e_P s2) Q2 1; rewrite !scale1r.
Qed.
Lemma tuned_join lam A1 A2 Q1 Q2 s1 s2 :
  t_predict_tuned lam (diag2 A1 A2) (diag2 Q1 Q2) (join_est s1 s2) = join_est (t_predict_tuned lam A1 Q1 s1) (t_predict_tuned lam A2 Q2 s2).
Proof. by rewrite /t_predict_tuned /join_est /=; congr Est; [exact: diag2_mul|exact: diag2_congr]. Qed.
Lemma control_1 k s1 s2 : do_control (ctl_1 n2 k) (join_est s1 s2) = join_est (do_control k s1) s2.
Proof.
case: k => m B u Q; rewrite /= /t_control /join_est /=; congr Est; first by rewrite mul_col_mx mul0mx add_col_mx addr0.
by rewrite /diag2 tr_col_mx trmx0 mul_col_mx mul0mx mul_col_row !mul0mx !mulmx0 add_block_mx !addr0.
Qed.
Lemma control_2 k s1 s2 : do_control (ctl_2 n1 k) (join_est s1 s2) = join_est s1 (do_control k s2).
Proof.
case: k => m B u Q; rewrite /= /t_control /join_est /=; congr Est; first by rewrite mul_col_mx mul0mx add_col_mx addr0.
by rewrite /diag2 tr_col_mx trmx0 mul_col_mx mul0mx mul_col_row !mul0mx !mulmx0 add_block_mx !addr0.
Qed.
Lemma HP_1 m (H : 'M[R]_(m, n1)) P1 P2 : row_mx H 0 *m diag2 P1 P2 = row_mx (H *m P1) 0.
Proof. by rewrite /diag2 mul_row_block !mul0mx !mulmx0 !addr0. Qed.
Lemma HP_2 m (H : 'M[R]_(m, n2)) P1 P2 : row_mx 0 H *m diag2 P1 P2 = row_mx 0 (H *m P2).
Proof. by rewrite /diag2 mul_row_block !mul0mx !mulmx0 !add0r. Qed.
Lemma S_1 m (H : 'M[R]_(m, n1)) Rm P1 P2 : t_S (row_mx H 0) Rm (diag2 P1 P2) = t_S H Rm P1.
Proof. by rewrite /t_S HP_1 tr_row_mx trmx0 mul_row_col mulmx0 addr0. Qed.
Lemma S_2 m (H : 'M[R]_(m, n2)) Rm P1 P2 : t_S (row_mx 0 H) Rm (diag2 P1 P2) = t_S H Rm P2.
Proof. by rewrite /t_S HP_2 tr_row_mx trmx0 mul_row_col mulmx0 add0r. Qed.
Lemma K_1 m (H : 'M[R]_(m, n1)) Rm P1 P2 : t_K (row_mx H 0) Rm (diag2 P1 P2) = col_mx (t_K H Rm P1) 0.
Proof. by rewrite /t_K S_1 /diag2 tr_row_mx trmx0 mul_block_col !mulmx0 mul0mx !addr0 mul_col_mx mul0mx. Qed.
Lemma K_2 m (H : 'M[R]_(m, n2)) Rm P1 P2 : t_K (row_mx 0 H) Rm (diag2 P1 P2) = col_mx 0 (t_K H Rm P2).
Proof. by rewrite /t_K S_2 /diag2 tr_row_mx trmx0 mul_block_col !mulmx0 mul0mx !add0r mul_col_mx mul0mx. Qed.
Lemma update_1 m (H : 'M[R]_(m, n1)) Rm y s1 s2 : t_update (row_mx H 0) Rm y (join_est s1 s2) = join_est (t_update H Rm y s1) s2.
Proof.
rewrite /t_update /join_est /= K_1 HP_1; congr Est; first by rewrite mul_col_mx mul0mx add_col_mx addr0.
by rewrite mul_col_row !mul0mx !mulmx0 /diag2 opp_block_mx add_block_mx !oppr0 !addr0.
Qed.
Lemma update_2 m (H : 'M[R]_(m, n2)) Rm y s1 s2 : t_update (row_mx 0 H) Rm y (join_est s1 s2) = join_est s1 (t_update H Rm y s2).
Proof.
rewrite /t_update /join_est /= K_2 HP_2; congr Est; first by rewrite mul_col_mx mul0mx add_col_mx addr0.
by rewrite mul_col_row !mul0mx !mulmx0 /diag2 opp_block_mx add_block_mx !oppr0 !addr0.
Qed.
Lemma correct_1 o s1 s2 : do_correct (obs_1 n2 o) (join_est s1 s2) = join_est (do_correct o s1) s2.
Proof. by case: o => m H z Rm; rewrite /= /t_correct update_1 /= mul_row_col mul0mx addr0. Qed.
Lemma correct_2 o s1 s2 : do_correct (obs_2 n1 o) (join_est s1 s2) = join_est s1 (do_correct o s2).
Proof. by case: o => m H z Rm; rewrite /= /t_correct update_2 /= mul_row_col mul0mx add0r. Qed.
Lemma correct_nl_1 F o s1 s2 : do_correct_nl (fun m x => F m (usubmx x)) (obs_1 n2 o) (join_est s1 s2) = join_est (do_correct_nl F o s1) s2.
Proof. by case: o => m H z Rm; rewrite /= update_1 /= col_mxKu. Qed.
Lemma correct_nl_2 F o s1 s2 : do_correct_nl (fun m x => F m (dsubmx x)) (obs_2 n1 o) (join_est s1 s2) = join_est s1 (do_correct_nl F o s2).
Proof. by case: o => m H z Rm; rewrite /= update_2 /= col_mxKd. Qed.

(** lists *)
Lemma nth_cat_l A (l r : seq A) i : (i < size l)%N -> nth_error (l ++ r) i = nth_error l i.
Proof. by elim: l i => [|a l IH] [|i] //= H; apply: IH. Qed.
Lemma nth_cat_r A (l r : seq A) i : nth_error (l ++ r) (size l + i) = nth_error r i.
Proof. by elim: l. Qed.
Lemma alter_cat_l A (g : A -> A) (l r : seq A) i : (i < size l)%N -> alter g i (l ++ r) = alter g i l ++ r.
Proof. by elim: l i => [|a l IH] [|i] //= H; rewrite IH. Qed.
Lemma alter_cat_r A (g : A -> A) (l r : seq A) i : alter g (size l + i) (l ++ r) = l ++ alter g i r.
Proof. by elim: l => [|a l IH] //=; rewrite IH. Qed.
Lemma size_mapL A B (f : A -> B) l : size (List.map f l) = size l.
Proof. by elim: l => //= a l ->. Qed.
Lemma map_alter2 A B (f : A -> B) (g : A -> A) (h : B -> B) i l : (forall a, f (g a) = h (f a)) -> alter h i (List.map f l) = List.map f (alter g i l).
Proof. by move=> H; elim: l i => [|a l IH] [|i] //=; rewrite ?H ?IH. Qed.

Lemma step_join w1 w2 j : jop_ok w1 w2 j -> tstep (join w1 w2) (joint_op w1 w2 j) = join (trun w1 (ops_1 j)) (trun w2 (ops_2 j)).
Proof.
case: j => /= [|lam|F1 F2|lam F1 F2|t|t] Hj; rewrite /join /tw_est /=.
- by rewrite predict_join.
- by rewrite tuned_join.
- congr TW; have [_ E] := predict_join (tw_A w1) (tw_A w2) (tw_Q w1) (tw_Q w2) (tw_s w1) (tw_s w2).
  by rewrite E /both col_mxKu col_mxKd.
- congr TW; have [_ E] := tuned_join lam (tw_A w1) (tw_A w2) (tw_Q w1) (tw_Q w2) (tw_s w1) (tw_s w2).
  by rewrite E /both col_mxKu col_mxKd.
- case: t Hj => //=.
  + move=> i Hi; congr TW; rewrite nth_cat_l ?size_mapL // nth_mapo; case: (nth_error _ i) => [k|] //=; exact: control_1.
  + move=> i Hi; congr TW; rewrite nth_cat_l ?size_mapL // nth_mapo; case: (nth_error _ i) => [k|] //=; exact: correct_1.
  + move=> i F Hi; congr TW; rewrite nth_cat_l ?size_mapL // nth_mapo; case: (nth_error _ i) => [k|] //=; exact: correct_nl_1.
  + move=> i M Hi; congr TW; rewrite alter_cat_l ?size_mapL //; congr (_ ++ _); apply: map_alter2; by case.
  + move=> i M Hi; congr TW; rewrite alter_cat_l ?size_mapL //; congr (_ ++ _); apply: map_alter2; by case.
  + move=> i M Hi; congr TW; rewrite alter_cat_l ?size_mapL //; congr (_ ++ _); apply: map_alter2; by case.
  + move=> i M Hi; congr TW; rewrite alter_cat_l ?size_mapL //; congr (_ ++ _); apply: map_alter2; by case.
  + move=> i M Hi; congr TW; rewrite alter_cat_l ?size_mapL //; congr (_ ++ _); apply: map_alter2; by case.
  + move=> i M Hi; congr TW; rewrite alter_cat_l ?size_mapL //; congr (_ ++ _); apply: map_alter2; by case.
- case: t Hj => //=.
  + move=> i Hi; congr TW; rewrite -(size_mapL (ctl_1 n2)) nth_cat_r nth_mapo; case: (nth_error _ i) => [k|] //=; exact: control_2.
  + move=> i Hi; congr TW; rewrite -(size_mapL (obs_1 n2)) nth_cat_r nth_mapo; case: (nth_error _ i) => [k|] //=; exact: correct_2.
  + move=> i F Hi; congr TW; rewrite -(size_mapL (obs_1 n2)) nth_cat_r nth_mapo; case: (nth_error _ i) => [k|] //=; exact: correct_nl_2.
  + move=> i M Hi; congr TW; rewrite -(size_mapL (ctl_1 n2)) alter_cat_r; congr (_ ++ _); apply: map_alter2; by case.
  + move=> i M Hi; congr TW; rewrite -(size_mapL (ctl_1 n2)) alter_cat_r; congr (_ ++ _); apply: map_alter2; by case.
  + move=> i M Hi; congr TW; rewrite -(size_mapL (ctl_1 n2)) alter_cat_r; congr (_ ++ _); apply: map_alter2; by case.
  + move=> i M Hi; congr TW; rewrite -(size_mapL (obs_1 n2)) alter_cat_r; congr (_ ++ _); apply: map_alter2; by case.
  + move=> i M Hi; congr TW; rewrite -(size_mapL (obs_1 n2)) alter_cat_r; congr (_ ++ _); apply: map_alter2; by case.
  + move=> i M Hi; congr TW; rewrite -(size_mapL (obs_1 n2)) alter_cat_r; congr (_ ++ _); apply: map_alter2; by case.
Qed.

Lemma op_ok_join w1 w2 j : jop_ok w1 w2 j -> ops_ok w1 (ops_1 j) -> ops_ok w2 (ops_2 j) -> op_ok (join w1 w2) (joint_op w1 w2 j).
Proof.
case: j => /= [|lam|F1 F2|lam F1 F2|t|t] //; try by move=> _ [].
- case: t => //= i; [|move=> F]; move=> Hi [+ _] _; rewrite nth_cat_l ?size_mapL // nth_mapo;
    case: (nth_error _ i) => [[m H z Rm]|] //=; by rewrite S_1.
- case: t => //= i; [|move=> F]; move=> Hi _ [+ _]; rewrite -(size_mapL (obs_1 n2)) nth_cat_r nth_mapo;
    case: (nth_error _ i) => [[m H z Rm]|] //=; by rewrite S_2.
Qed.
Lemma ops_ok_cat' n (w : tworld R n) a b : ops_ok w (a ++ b) <-> ops_ok w a /\ ops_ok (trun w a) b.
Proof. by elim: a w => [|t a IH] w /=; [split=> [H|[]]|rewrite IH; split=> [[? [? ?]]|[[? ?] ?]]]. Qed.
Lemma trun_cat' n (w : tworld R n) a b : trun w (a ++ b) = trun (trun w a) b.
Proof. exact: foldl_cat. Qed.
Lemma run_join w1 w2 js : jops_ok w1 w2 js -> ops_ok w1 (all_1 js) -> ops_ok w2 (all_2 js) ->
  ops_ok (join w1 w2) (joint_ops w1 w2 js) /\ trun (join w1 w2) (joint_ops w1 w2 js) = join (trun w1 (all_1 js)) (trun w2 (all_2 js)).
Proof.
elim: js w1 w2 => [|j js IH] w1 w2 //= [Hj Hs]; rewrite /all_1 /all_2 /= => /ops_ok_cat' [a1 b1] /ops_ok_cat' [a2 b2].
have [I1 I2] := IH _ _ Hs b1 b2.
by rewrite step_join // !trun_cat' I2; split=> //; split=> //; apply: op_ok_join.
Qed.
End Two.

(** ** programs *)
Variables (c c1 c2 : cfg) (n1 n2 : nat).
Local Notation N := (@exact_num R).
Theorem run_decoupled (w w1 w2 : world R) (os os1 os2 : seq (op R)) (js : seq (jop R n1 n2)) :
  world_ok c (n1 + n2) w -> world_ok c1 n1 w1 -> world_ok c2 n2 w2 ->
  world_abs (n1 + n2) w = join (world_abs n1 w1) (world_abs n2 w2) -> jops_ok (world_abs n1 w1) (world_abs n2 w2) js ->
  List.Forall2 (@denotes R c (n1 + n2) w) os (joint_ops (world_abs n1 w1) (world_abs n2 w2) js) ->
  List.Forall2 (@denotes R c1 n1 w1) os1 (all_1 js) -> List.Forall2 (@denotes R c2 n2 w2) os2 (all_2 js) ->
  ops_ok (world_abs n1 w1) (all_1 js) -> ops_ok (world_abs n2 w2) (all_2 js) ->
  exists w' w1' w2', run c N (n1 + n2) w os = Ok w' /\ run c1 N n1 w1 os1 = Ok w1' /\ run c2 N n2 w2 os2 = Ok w2' /\
    mx (n1 + n2) 1 (kf_x (w_kf w')) = col_mx (mx n1 1 (kf_x (w_kf w1'))) (mx n2 1 (kf_x (w_kf w2'))) /\
    mx (n1 + n2) (n1 + n2) (kf_P (w_kf w')) = block_mx (mx n1 n1 (kf_P (w_kf w1'))) 0 0 (mx n2 n2 (kf_P (w_kf w2'))).
Proof.
move=> W W1 W2 EJ Hj D D1 D2 O1 O2; have [O E] := run_join Hj O1 O2.
rewrite -EJ in O E.
have [w' [E0 [_ [_ [_ A0]]]]] := run_refines W D O; have [w1' [E1 [_ [_ [_ A1]]]]] := run_refines W1 D1 O1; have [w2' [E2 [_ [_ [_ A2]]]]] := run_refines W2 D2 O2.
exists w', w1', w2'; split=> //; split=> //; split=> //.
have : tw_s (world_abs (n1 + n2) w') = join_est (tw_s (world_abs n1 w1')) (tw_s (world_abs n2 w2')) by rewrite A0 E A1 A2.
by case.
Qed.
End JoinMath.
