(** * Vocabulary: two element types, with one relation for the models and covariances and another for the data

    Data are the state, the control inputs, the readings and the innovations; everything else (matrices, covariances, gains) is
    model.  The relations of single results ([opt_rel], [res_rel], [fun_rel]) are those of SpecParam.v. *)
From Verif Require Export SpecParam.

Section DataPar.
Context {T1 T2 : Type}.
Context (esc : Prop) (R0 RD : T1 -> T2 -> Prop).

(** [R0] is respected by all operations; a model element times a datum is a datum, and so are sums and differences of data *)
Definition num_mixed (N1 : num T1) (N2 : num T2) : Prop :=
  num_rel esc R0 N1 N2 /\ (forall a a', R0 a a' -> RD a a') /\
  (forall k k' a a', R0 k k' -> RD a a' -> opt_rel esc RD (o_mul N1 k a) (o_mul N2 k' a')) /\
  (forall a b a' b', RD a a' -> RD b b' -> opt_rel esc RD (o_add N1 a b) (o_add N2 a' b')) /\
  (forall a b a' b', RD a a' -> RD b b' -> opt_rel esc RD (o_sub N1 a b) (o_sub N2 a' b')).

Notation LM := (Forall2 R0).
Notation LD := (Forall2 RD).
Definition kf_mixed (f : kalman T1) (g : kalman T2) : Prop :=
  LM (kf_A f) (kf_A g) /\ LD (kf_x f) (kf_x g) /\ LM (kf_P f) (kf_P g) /\ LM (kf_Q f) (kf_Q g) /\ LD (kf_px f) (kf_px g) /\ LM (kf_tP f) (kf_tP g).
Definition ob_mixed (f : observation T1) (g : observation T2) : Prop :=
  LM (ob_H f) (ob_H g) /\ LD (ob_z f) (ob_z g) /\ LM (ob_R f) (ob_R g) /\ LD (ob_y f) (ob_y g) /\ LM (ob_S f) (ob_S g) /\
  LM (ob_K f) (ob_K g) /\ LM (ob_Sinv f) (ob_Sinv g) /\ LM (ob_HP f) (ob_HP g) /\ LM (ob_PHt f) (ob_PHt g) /\ LM (ob_KHP f) (ob_KHP g).
Definition ct_mixed (f : control T1) (g : control T2) : Prop :=
  LM (ct_B f) (ct_B g) /\ LD (ct_u f) (ct_u g) /\ LM (ct_Q f) (ct_Q g) /\ LM (ct_BQ f) (ct_BQ g).
Definition world_mixed (w : world T1) (v : world T2) : Prop :=
  kf_mixed (w_kf w) (w_kf v) /\ Forall2 (fun a b => fst a = fst b /\ ct_mixed (snd a) (snd b)) (w_ct w) (w_ct v) /\
  Forall2 (fun a b => fst a = fst b /\ ob_mixed (snd a) (snd b)) (w_ob w) (w_ob v).

(** the same call; what it writes or uses is related *)
Inductive op_mixed : op T1 -> op T2 -> Prop :=
| M_predict : op_mixed (OPredict) (OPredict)
| M_tuned l l' : R0 l l' -> op_mixed (OPredictTuned l) (OPredictTuned l')
| M_nl h h' : fun_rel esc RD h h' -> op_mixed (OPredictNonlinear h) (OPredictNonlinear h')
| M_tuned_nl l l' h h' : R0 l l' -> fun_rel esc RD h h' -> op_mixed (OPredictTunedNonlinear l h) (OPredictTunedNonlinear l' h')
| M_control i : op_mixed (OControl i) (OControl i)
| M_correct j : op_mixed (OCorrect j) (OCorrect j)
| M_correct_nl j h h' : fun_rel esc RD h h' -> op_mixed (OCorrectNonlinear j h) (OCorrectNonlinear j h')
| M_A l l' : LM l l' -> op_mixed (OSetA l) (OSetA l')
| M_X l l' : LD l l' -> op_mixed (OSetX l) (OSetX l')
| M_P l l' : LM l l' -> op_mixed (OSetP l) (OSetP l')
| M_Q l l' : LM l l' -> op_mixed (OSetQ l) (OSetQ l')
| M_B i l l' : LM l l' -> op_mixed (OSetB i l) (OSetB i l')
| M_U i l l' : LD l l' -> op_mixed (OSetU i l) (OSetU i l')
| M_CQ i l l' : LM l l' -> op_mixed (OSetCQ i l) (OSetCQ i l')
| M_H j l l' : LM l l' -> op_mixed (OSetH j l) (OSetH j l')
| M_Z j l l' : LD l l' -> op_mixed (OSetZ j l) (OSetZ j l')
| M_R j l l' : LM l l' -> op_mixed (OSetR j l) (OSetR j l').
End DataPar.
