(** * Lemmas behind PropExact.v *)
From Verif Require Import Spec Matrix Filter Extended SpecFilter History SpecGen SpecExact SpecHistory SpecWorld.
From Verif Require Import Exact Psd CholExact KMath FilterExact CallExact ExampleData Represent ExactExamples.
From mathcomp Require Import all_ssreflect all_algebra.
Set Implicit Arguments.
Unset Strict Implicit.
Unset Printing Implicit Defensive.
Import Order.TTheory GRing.Theory Num.Theory.
Local Open Scope ring_scope.

Section ExactMain.
Variable R : rcfType.
Local Notation N := (@exact_num R).

Lemma cholesky_main (c : cfg) (n : nat) (a : seq R) : (0 < n)%N -> valid c n n a -> sym (mx n n a) ->
  exists ok l, cholesky_decompose_lower c N n n a = Ok (ok, l) /\ same_tail n n a l /\
    (ok = true <-> pd (mx n n a)) /\
    (ok = true -> chol_factor (mx n n l) /\ mx n n l *m (mx n n l)^T = mx n n a /\
       forall L, chol_factor L -> L *m L^T = mx n n a -> L = mx n n l).
Proof.
move=> Hn Ha sA; have [ok [l [E [_ [T [I F]]]]]] := cholesky_sym Hn Ha sA.
exists ok, l; split=> //; split=> //; split=> // Hok; have [F1 F2] := F Hok.
by split=> //; split=> // L F3 F4; apply: chol_factor_unique => //; rewrite F4.
Qed.

Lemma cholesky_singular (c : cfg) (n : nat) (a : seq R) : (0 < n)%N -> valid c n n a -> psd (mx n n a) -> ~ pd (mx n n a) ->
  exists l, cholesky_decompose_lower c N n n a = Ok (false, l).
Proof.
move=> Hn Ha [sA _] nP; have [[] [l [E [_ [I _]]]]] := cholesky_main Hn Ha sA; last by exists l.
by case: nP; apply/I.
Qed.
Lemma cholesky_flag (c : cfg) (n : nat) (a : seq R) : (0 < n)%N -> valid c n n a -> sym (mx n n a) ->
  exists ok l, cholesky_decompose_lower c N n n a = Ok (ok, l) /\ (~ psd (mx n n a) -> ok = false) /\
    (ok = false -> ~ pd (mx n n a)).
Proof.
move=> Hn Ha sA; have [ok [l [E [_ [I _]]]]] := cholesky_main Hn Ha sA.
exists ok, l; split=> //; split=> [nP|Hok /I]; last by rewrite Hok.
by apply/negP => Hok; apply: nP; apply: pd_psd; apply/I.
Qed.
Lemma zero_not_pd n : (0 < n)%N -> ~ pd (0 : 'M[R]_n).
Proof. by case: n => // n _ /pd_unit; rewrite unitmxE det0 unitfE eqxx. Qed.
Lemma cholesky_zero : exists a : seq R, valid cfg64 2 2 a /\ psd (mx 2 2 a) /\
  exists l, cholesky_decompose_lower cfg64 N 2 2 a = Ok (false, l).
Proof.
exists (of_mx (0 : 'M[R]_2)); have V : valid cfg64 2 2 (of_mx (0 : 'M[R]_2)) by apply: of_mx_valid; apply: fits64.
split; first exact: V; rewrite mx_of; split; first exact: psd0.
by apply: cholesky_singular => //; rewrite mx_of; [apply: psd0|apply: zero_not_pd].
Qed.

Lemma inverse_main (c : cfg) (n : nat) (a l inv0 : seq R) : (0 < n)%N -> valid c n n a -> valid c n n inv0 -> sym (mx n n a) ->
  cholesky_decompose_lower c N n n a = Ok (true, l) ->
  exists X, invert_l_cholesky c N n l inv0 = Ok X /\ same_tail n n inv0 X /\
    mx n n a *m mx n n X = 1%:M /\ mx n n X *m mx n n a = 1%:M.
Proof.
move=> Hn Ha Hi sA E; have [ok [l' [E' [_ [_ [I _]]]]]] := cholesky_sym Hn Ha sA.
move: E'; rewrite E => -[Eok _]; have pA : pd (mx n n a) by apply/I; rewrite -Eok.
have [l2 [X [E2 [_ [_ [EX [_ [T EI]]]]]]]] := cholesky_invert_exact Hn Ha Hi pA.
move: E2; rewrite E => -[El]; rewrite -El in EX.
by exists X; split=> //; split=> //; rewrite EI; have u := pd_unit pA; rewrite mulmxV // mulVmx.
Qed.

(** ** the innovation covariance buffer *)
Lemma S_buffer (c : cfg) (n m : nat) (o : observation R) (f : kalman R) : (0 < n)%N -> (0 < m)%N ->
  ob_valid c n m o -> kf_valid c n f -> pd (t_S (mx m n (ob_H o)) (mx m m (ob_R o)) (mx n n (kf_P f))) ->
  exists o' f', correct c N n m o f = Ok (o', f') /\ chol_factor (mx m m (ob_S o')) /\
    mx m m (ob_S o') *m (mx m m (ob_S o'))^T = t_S (mx m n (ob_H o)) (mx m m (ob_R o)) (mx n n (kf_P f)) /\
    (mx m m (ob_S o') = t_S (mx m n (ob_H o)) (mx m m (ob_R o)) (mx n n (kf_P f)) ->
     t_S (mx m n (ob_H o)) (mx m m (ob_R o)) (mx n n (kf_P f)) = 1%:M).
Proof.
move=> Hn Hm Vo Vf pS; have [o' [f' [E [_ [_ [_ [_ [_ [_ [_ [_ [F1 F2]]]]]]]]]]]] := correct_exact Hn Hm Vo Vf pS.
exists o', f'; split=> //; split=> //; split=> // ES; have uS := pd_unit pS; have [sS _] := pS.
by move: F2; rewrite ES sS => F2; rewrite -[LHS](mulmxK uS) F2 mulmxV.
Qed.

(** ** objects for the examples *)
Lemma rep_valid n (w : tworld R n) : tw_fits cfg64 w -> world_valid cfg64 n (rep w).
Proof. by move/rep_ok => [_ []]. Qed.

(** a filter, a control and observations, with definite, non-diagonal covariances; the third is the other two stacked,
    the fourth is the second in other units *)
Definition y_H1 : 'M[R]_(1, 2) := delta_mx 0 0.
Definition y_tw (x0 : 'cV[R]_2) (P0 : 'M[R]_2) : tworld R 2 :=
  TW (x_A R) 1%:M (Est x0 P0) [:: x_ct R]
     [:: TObs y_H1 (const_mx 5) (x_P R 1); TObs (x_A R : 'M[R]_2) (const_mx 7) (x_P R 2);
         TObs (col_mx y_H1 (x_A R) : 'M[R]_(1 + 2, 2)) (col_mx (const_mx 5) (const_mx 7)) (block_mx (x_P R 1) 0 0 (x_P R 2));
         TObs (x_A R *m x_A R : 'M[R]_2) (x_A R *m const_mx 7) (x_A R *m x_P R 2 *m (x_A R)^T);
         TObs y_H1 0 0].
Lemma y_tw_fits x0 P0 : tw_fits cfg64 (y_tw x0 P0).
Proof.
have Hn : (0 < 2)%N by [].
have H1 : fits cfg64 2 1 by apply: fits64.
have H2 : fits cfg64 2 2 by apply: fits64.
refine (conj Hn (conj H1 (conj H2 (conj _ _)))).
  apply: List.Forall_cons; [exact: ct_fits64|exact: List.Forall_nil].
do 5 (apply: List.Forall_cons; first exact: ob_fits64); exact: List.Forall_nil.
Qed.

Definition y_objects (x0 : 'cV[R]_2) (P0 : 'M[R]_2) (f : kalman R) (k : control R) (o1 o2 o12 o2u o0 : observation R) : Prop :=
  kf_valid cfg64 2 f /\ mx 2 1 (kf_x f) = x0 /\ mx 2 2 (kf_P f) = P0 /\ mx 2 2 (kf_A f) = x_A R /\ mx 2 2 (kf_Q f) = 1%:M /\
  ct_valid cfg64 2 1 k /\
  (ob_valid cfg64 2 1 o1 /\ mx 1 2 (ob_H o1) = y_H1 /\ mx 1 1 (ob_z o1) = const_mx 5 /\ mx 1 1 (ob_R o1) = x_P R 1) /\
  (ob_valid cfg64 2 2 o2 /\ mx 2 2 (ob_H o2) = x_A R /\ mx 2 1 (ob_z o2) = const_mx 7 /\ mx 2 2 (ob_R o2) = x_P R 2) /\
  (ob_valid cfg64 2 (1 + 2) o12 /\ mx (1 + 2) 2 (ob_H o12) = col_mx (mx 1 2 (ob_H o1)) (mx 2 2 (ob_H o2)) /\
     mx (1 + 2) 1 (ob_z o12) = col_mx (mx 1 1 (ob_z o1)) (mx 2 1 (ob_z o2)) /\
     mx (1 + 2) (1 + 2) (ob_R o12) = block_mx (mx 1 1 (ob_R o1)) 0 0 (mx 2 2 (ob_R o2))) /\
  (ob_valid cfg64 2 2 o2u /\ mx 2 2 (ob_H o2u) = x_A R *m mx 2 2 (ob_H o2) /\ mx 2 1 (ob_z o2u) = x_A R *m mx 2 1 (ob_z o2) /\
     mx 2 2 (ob_R o2u) = x_A R *m mx 2 2 (ob_R o2) *m (x_A R)^T) /\
  (ob_valid cfg64 2 1 o0 /\ mx 1 2 (ob_H o0) = y_H1 /\ mx 1 1 (ob_z o0) = 0 /\ mx 1 1 (ob_R o0) = 0).

Lemma Forall_hd A (P : A -> Prop) a l : List.Forall P (a :: l) -> P a.
Proof. by inversion 1. Qed.
Lemma Forall_tl A (P : A -> Prop) a l : List.Forall P (a :: l) -> List.Forall P l.
Proof. by inversion 1. Qed.
Lemma y_exists x0 P0 : exists f k o1 o2 o12 o2u o0, y_objects x0 P0 f k o1 o2 o12 o2u o0.
Proof.
have [V [Vc Vo]] := rep_valid (y_tw_fits x0 P0); have E := rep_abs (y_tw x0 P0).
have V1 := Forall_hd Vo; have Vo1 := Forall_tl Vo; have V2 := Forall_hd Vo1; have Vo2 := Forall_tl Vo1.
have V3 := Forall_hd Vo2; have Vo3 := Forall_tl Vo2; have V4 := Forall_hd Vo3; have V5 := Forall_hd (Forall_tl Vo3).
exists (w_kf (rep (y_tw x0 P0))), (snd (rep_ct (x_ct R))).
exists (snd (rep_ob (TObs y_H1 (const_mx 5) (x_P R 1)))), (snd (rep_ob (TObs (x_A R : 'M[R]_2) (const_mx 7) (x_P R 2)))).
exists (snd (rep_ob (TObs (col_mx y_H1 (x_A R) : 'M[R]_(1 + 2, 2)) (col_mx (const_mx 5) (const_mx 7)) (block_mx (x_P R 1) 0 0 (x_P R 2))))).
exists (snd (rep_ob (TObs (x_A R *m x_A R : 'M[R]_2) (x_A R *m const_mx 7) (x_A R *m x_P R 2 *m (x_A R)^T)))).
exists (snd (rep_ob (TObs y_H1 0 0 : tobs R 2))).
red; rewrite ![_ (snd _)]/= ![_ (w_kf _)]/= !mx_of.
refine (conj V (conj erefl (conj erefl (conj erefl (conj erefl (conj (Forall_hd Vc) (conj _ (conj _ (conj _ (conj _ _)))))))))).
- exact: (conj V1 (conj erefl (conj erefl erefl))).
- exact: (conj V2 (conj erefl (conj erefl erefl))).
- exact: (conj V3 (conj erefl (conj erefl erefl))).
- exact: (conj V4 (conj erefl (conj erefl erefl))).
- exact: (conj V5 (conj erefl (conj erefl erefl))).
Qed.

(** hypotheses of the single-call theorems are met *)
Lemma y_calls : exists f k o1 o2 o12 o2u o0, y_objects (const_mx 2) (x_P R 2) f k o1 o2 o12 o2u o0 /\
  pd (mx 2 2 (kf_P f)) /\ pd (mx 1 1 (ob_R o1)) /\ pd (mx 2 2 (ob_R o2)) /\
  pd (t_S (mx 1 2 (ob_H o1)) (mx 1 1 (ob_R o1)) (mx 2 2 (kf_P f))) /\
  pd (t_S (mx 2 2 (ob_H o2)) (mx 2 2 (ob_R o2)) (mx 2 2 (kf_P f))).
Proof.
have [f [k [o1 [o2 [o12 [o2u [o0 Y]]]]]]] := y_exists (const_mx 2) (x_P R 2).
exists f, k, o1, o2, o12, o2u, o0; have [_ [_ [EP [_ [_ [_ [[_ [_ [_ E1]]] [[_ [_ [_ E2]]] _]]]]]]]] := Y.
have p1 : pd (mx 1 1 (ob_R o1)) by rewrite E1; apply: x_P_pd.
have p2 : pd (mx 2 2 (ob_R o2)) by rewrite E2; apply: x_P_pd.
have pP : pd (mx 2 2 (kf_P f)) by rewrite EP; apply: x_P_pd.
have ps := pd_psd pP.
exact: (conj Y (conj pP (conj p1 (conj p2 (conj (S_pd _ ps p1) (S_pd _ ps p2)))))).
Qed.
(** no measurement noise: still a definite S *)
Lemma y_exact_measurement : exists f k o1 o2 o12 o2u o0, y_objects (const_mx 2) (x_P R 2) f k o1 o2 o12 o2u o0 /\
  mx 1 1 (ob_R o0) = 0 /\ pd (t_S (mx 1 2 (ob_H o0)) (mx 1 1 (ob_R o0)) (mx 2 2 (kf_P f))).
Proof.
have [f [k [o1 [o2 [o12 [o2u [o0 Y]]]]]]] := y_exists (const_mx 2) (x_P R 2).
exists f, k, o1, o2, o12, o2u, o0; have [_ [_ [EP [_ [_ [_ [_ [_ [_ [_ [_ [EH [_ ER]]]]]]]]]]]]] := Y.
refine (conj Y (conj ER _)); rewrite ER EH EP /t_S addr0 /x_P mulmxDr mulmxDl mulmx1 addrC; apply: pdD.
  have -> : (const_mx 1 : 'M[R]_2) = (const_mx 1 : 'cV[R]_2) *m (const_mx 1 : 'cV[R]_2)^T.
    by apply/matrixP => i j; rewrite mxE [RHS]mxE big_ord1 !mxE mulr1.
  exact/psd_congr/psd_gram.
by rewrite /y_H1 trmx_delta mul_delta_mx; have -> : delta_mx 0 0 = 1%:M :> 'M[R]_1; [apply/matrixP => i j; rewrite !ord1 !mxE|apply: pd1].
Qed.
(** a state the measurement tells nothing about; a certain state *)
Lemma y_unseen : exists f k o1 o2 o12 o2u o0, y_objects (const_mx 2) 1%:M f k o1 o2 o12 o2u o0 /\
  pd (t_S (mx 1 2 (ob_H o1)) (mx 1 1 (ob_R o1)) (mx 2 2 (kf_P f))) /\ row 1 (mx 2 2 (kf_P f) *m (mx 1 2 (ob_H o1))^T) = 0.
Proof.
have [f [k [o1 [o2 [o12 [o2u [o0 Y]]]]]]] := y_exists (const_mx 2) 1%:M.
exists f, k, o1, o2, o12, o2u, o0; have [_ [_ [EP [_ [_ [_ [[_ [EH [_ E1]]] _]]]]]]] := Y.
refine (conj Y _); rewrite EP EH E1; split; first by apply: S_pd; [apply: one_psd|apply: x_P_pd].
by rewrite mul1mx /y_H1 trmx_delta; apply/matrixP => i j; rewrite !mxE.
Qed.
Lemma y_certain : exists f k o1 o2 o12 o2u o0, y_objects (const_mx 2) 0 f k o1 o2 o12 o2u o0 /\
  pd (mx 1 1 (ob_R o1)) /\ mx 2 2 (kf_P f) = 0.
Proof.
have [f [k [o1 [o2 [o12 [o2u [o0 Y]]]]]]] := y_exists (const_mx 2) 0.
exists f, k, o1, o2, o12, o2u, o0; have [_ [_ [EP [_ [_ [_ [[_ [_ [_ E1]]] _]]]]]]] := Y.
refine (conj Y _); rewrite EP E1; split=> //; exact: x_P_pd.
Qed.
(** S = 4, the buffer holds 2 *)
Lemma S_buffer_witness : exists f o o' f', kf_valid cfg64 2 f /\ ob_valid cfg64 2 1 o /\
  pd (t_S (mx 1 2 (ob_H o)) (mx 1 1 (ob_R o)) (mx 2 2 (kf_P f))) /\
  correct cfg64 N 2 1 o f = Ok (o', f') /\
  mx 1 1 (ob_S o') <> t_S (mx 1 2 (ob_H o)) (mx 1 1 (ob_R o)) (mx 2 2 (kf_P f)).
Proof.
have [f [k [o1 [o2 [o12 [o2u [o0 [Y [_ [_ [_ [pS _]]]]]]]]]]]] := y_calls.
have [Vf [_ [EP [_ [_ [_ [[Vo [EH [_ E1]]] _]]]]]]] := Y.
have [o' [f' [E [_ [_ F]]]]] := @S_buffer cfg64 2 1 o1 f isT isT Vo Vf pS.
exists f, o1, o', f'; refine (conj Vf (conj Vo (conj pS (conj E _)))) => /F.
rewrite EP EH E1 /t_S /y_H1 trmx_delta -rowE -colE => /matrixP/(_ 0 0).
rewrite !mxE !eqxx /=; have -> : 1 + 1 + (1 + 1) = 4%:R :> R by rewrite !mulrS mulr0n addr0 !addrA.
by move/eqP; rewrite eqr_nat.
Qed.
(** examples for Cholesky and inversion *)
Lemma y_pd : exists a : seq R, valid cfg64 2 2 a /\ pd (mx 2 2 a) /\ sym (mx 2 2 a).
Proof.
exists (of_mx (x_P R 2)); have V : valid cfg64 2 2 (of_mx (x_P R 2)) by apply: of_mx_valid; apply: fits64.
refine (conj V _); rewrite mx_of; have p := x_P_pd R 2; exact: (conj p (proj1 p)).
Qed.
End ExactMain.
