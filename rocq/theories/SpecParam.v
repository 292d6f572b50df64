(** * Vocabulary: two element types and a relation between their values *)
From Verif Require Export Filter Extended History.

Section Par.
Context {T1 T2 : Type}.
(** [esc] says whether the first element type may panic where the second does not (False: the two behave alike everywhere) *)
Context (esc : Prop) (R : T1 -> T2 -> Prop).

(** the two results exist together and are related; if [esc], the second may also exist alone *)
Definition opt_rel (o1 : option T1) (o2 : option T2) : Prop :=
  match o1, o2 with Some a, Some b => R a b | None, None => True | None, Some _ => esc | Some _, None => False end.
(** the arithmetic of the two types respects the relation *)
Definition num_rel (N1 : num T1) (N2 : num T2) : Prop :=
  R (n_zero N1) (n_zero N2) /\ R (n_one N1) (n_one N2) /\ R (n_sum0 N1) (n_sum0 N2) /\
  (forall a b a' b', R a a' -> R b b' -> n_le N1 a b = n_le N2 a' b') /\
  (forall a b a' b', R a a' -> R b b' -> opt_rel (o_add N1 a b) (o_add N2 a' b')) /\
  (forall a b a' b', R a a' -> R b b' -> opt_rel (o_sub N1 a b) (o_sub N2 a' b')) /\
  (forall a b a' b', R a a' -> R b b' -> opt_rel (o_mul N1 a b) (o_mul N2 a' b')) /\
  (forall a a', R a a' -> opt_rel (o_neg N1 a) (o_neg N2 a')) /\
  (forall a a', R a a' -> opt_rel (o_recip N1 a) (o_recip N2 a')) /\
  (forall a a', R a a' -> opt_rel (o_sqrt N1 a) (o_sqrt N2 a')).

(** all buffers have the same lengths and related contents *)
Notation LR := (Forall2 R).
Definition kf_rel (f : kalman T1) (g : kalman T2) : Prop :=
  LR (kf_A f) (kf_A g) /\ LR (kf_x f) (kf_x g) /\ LR (kf_P f) (kf_P g) /\ LR (kf_Q f) (kf_Q g) /\ LR (kf_px f) (kf_px g) /\ LR (kf_tP f) (kf_tP g).
Definition ob_rel (f : observation T1) (g : observation T2) : Prop :=
  LR (ob_H f) (ob_H g) /\ LR (ob_z f) (ob_z g) /\ LR (ob_R f) (ob_R g) /\ LR (ob_y f) (ob_y g) /\ LR (ob_S f) (ob_S g) /\
  LR (ob_K f) (ob_K g) /\ LR (ob_Sinv f) (ob_Sinv g) /\ LR (ob_HP f) (ob_HP g) /\ LR (ob_PHt f) (ob_PHt g) /\ LR (ob_KHP f) (ob_KHP g).
Definition ct_rel (f : control T1) (g : control T2) : Prop :=
  LR (ct_B f) (ct_B g) /\ LR (ct_u f) (ct_u g) /\ LR (ct_Q f) (ct_Q g) /\ LR (ct_BQ f) (ct_BQ g).
Definition world_rel (w : world T1) (v : world T2) : Prop :=
  kf_rel (w_kf w) (w_kf v) /\ Forall2 (fun a b => fst a = fst b /\ ct_rel (snd a) (snd b)) (w_ct w) (w_ct v) /\
  Forall2 (fun a b => fst a = fst b /\ ob_rel (snd a) (snd b)) (w_ob w) (w_ob v).

(** the same outcome with related values; if [esc], the first may also be a panic of the element arithmetic *)
Definition res_rel {A B} (RA : A -> B -> Prop) (m1 : res A) (m2 : res B) : Prop :=
  (esc /\ m1 = Panic NumPanic) \/ match m1, m2 with Ok a, Ok b => RA a b | Panic p, Panic q => p = q | _, _ => False end.

(** a user function and its counterpart *)
Definition fun_rel (h : list T1 -> list T1 -> res (list T1)) (k : list T2 -> list T2 -> res (list T2)) : Prop :=
  forall x x' o o', LR x x' -> LR o o' -> res_rel LR (h x o) (k x' o').
(** the same call with related data *)
Inductive op_rel : op T1 -> op T2 -> Prop :=
| R_predict : op_rel (OPredict) (OPredict)
| R_tuned l l' : R l l' -> op_rel (OPredictTuned l) (OPredictTuned l')
| R_nl h h' : fun_rel h h' -> op_rel (OPredictNonlinear h) (OPredictNonlinear h')
| R_tuned_nl l l' h h' : R l l' -> fun_rel h h' -> op_rel (OPredictTunedNonlinear l h) (OPredictTunedNonlinear l' h')
| R_control i : op_rel (OControl i) (OControl i)
| R_correct j : op_rel (OCorrect j) (OCorrect j)
| R_correct_nl j h h' : fun_rel h h' -> op_rel (OCorrectNonlinear j h) (OCorrectNonlinear j h')
| R_A l l' : LR l l' -> op_rel (OSetA l) (OSetA l')
| R_X l l' : LR l l' -> op_rel (OSetX l) (OSetX l')
| R_P l l' : LR l l' -> op_rel (OSetP l) (OSetP l')
| R_Q l l' : LR l l' -> op_rel (OSetQ l) (OSetQ l')
| R_B i l l' : LR l l' -> op_rel (OSetB i l) (OSetB i l')
| R_U i l l' : LR l l' -> op_rel (OSetU i l) (OSetU i l')
| R_CQ i l l' : LR l l' -> op_rel (OSetCQ i l) (OSetCQ i l')
| R_H j l l' : LR l l' -> op_rel (OSetH j l) (OSetH j l')
| R_Z j l l' : LR l l' -> op_rel (OSetZ j l) (OSetZ j l')
| R_R j l l' : LR l l' -> op_rel (OSetR j l) (OSetR j l').
End Par.
