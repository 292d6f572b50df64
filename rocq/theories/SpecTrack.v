(** * Vocabulary for PropTrack.v *)
From Verif Require Export SpecGen.

(** the call of the regular filter that corresponds to a call of the extended filter; other calls stay as they are *)
Definition linearised {T} (o : op T) : op T :=
  match o with
  | OPredictNonlinear _ => OPredict
  | OPredictTunedNonlinear l _ => OPredictTuned l
  | OCorrectNonlinear j _ => OCorrect j
  | _ => o
  end.
(** the same call up to data and up to whether a prediction or a measurement is computed by the matrix or by a closure *)
Definition op_track {T} (o1 o2 : op T) : Prop := op_cov (linearised o1) (linearised o2).
