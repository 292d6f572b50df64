(** * Every textbook system of addressable size is the meaning of some program (used for the examples) *)
From Coq Require Import Lia.
From Verif Require Import Spec Matrix Filter Extended SpecFilter History SpecGen SpecExact SpecHistory HistGen HistExact ExampleData.
From mathcomp Require Import all_ssreflect all_algebra.
Set Implicit Arguments.
Unset Strict Implicit.
Unset Printing Implicit Defensive.
Import Order.TTheory GRing.Theory Num.Theory.
Local Open Scope ring_scope.

Section Represent.
Variable R : rcfType.
Variable c : cfg.

(** the row-major buffer of a matrix *)
Definition of_mx m n (M : 'M[R]_(m, n)) : seq R :=
  mkseq (fun p => match insub (p %/ n)%N, insub (p %% n)%N with Some i, Some j => M i j | _, _ => 0 end) (m * n).

Lemma length_of_mx m n (M : 'M[R]_(m, n)) : length (of_mx M) = (m * n)%N.
Proof. by rewrite -[LHS]/(size _) size_mkseq. Qed.

Lemma mx_of m n (M : 'M[R]_(m, n)) : mx m n (of_mx M) = M.
Proof.
apply/matrixP => i j; rewrite mxE; have Hn : (0 < n)%N by apply: leq_ltn_trans (ltn_ord j).
have Hb : (i * n + j < m * n)%N.
  by apply: (@leq_trans (i.+1 * n)); rewrite ?leq_mul2r ?ltn_ord ?orbT // mulSn addnC ltn_add2r.
by rewrite nth_mkseq // divnMDl // divn_small // addn0 modnMDl modn_small // !valK.
Qed.

(** a buffer of r*s elements can exist *)
Definition fits (r s : nat) : Prop := BinInt.Z.le (BinInt.Z.of_nat (r * s)) (imax c).

Lemma of_mx_valid m n (M : 'M[R]_(m, n)) : fits m n -> valid c m n (of_mx M).
Proof. by move=> H; split; [rewrite length_of_mx|rewrite /slice_ok length_of_mx]. Qed.
Lemma zeros_valid m n : fits m n -> valid c m n (nseq (m * n) (0 : R)).
Proof.
have E : length (nseq (m * n) (0 : R)) = (m * n)%N by rewrite -[LHS]/(size _) size_nseq.
by move=> H; split; [rewrite E|rewrite /slice_ok E].
Qed.

Variable n : nat.
Definition rep_ct (k : tctl R n) : nat * control R :=
  let: TCtl m B u Qc := k in (m, mk_ctl (of_mx B) (of_mx u) (of_mx Qc) (nseq (n * m) 0)).
Definition rep_ob (o : tobs R n) : nat * observation R :=
  let: TObs m H z Rm := o in
  (m, mk_obs (of_mx H) (of_mx z) (of_mx Rm) (nseq (m * 1) 0) (nseq (m * m) 0) (nseq (n * m) 0) (nseq (m * m) 0)
             (nseq (m * n) 0) (nseq (n * m) 0) (nseq (n * n) 0)).
Definition rep (w : tworld R n) : world R :=
  mk_world (mk_kalman (of_mx (tw_A w)) (of_mx (e_x (tw_s w))) (of_mx (e_P (tw_s w))) (of_mx (tw_Q w)) (nseq (n * 1) 0) (nseq (n * n) 0))
           (List.map rep_ct (tw_ct w)) (List.map rep_ob (tw_ob w)).

Definition ct_fits (k : tctl R n) : Prop := let: TCtl m B u Qc := k in fits n m /\ fits m 1 /\ fits m m.
Definition ob_fits (o : tobs R n) : Prop := let: TObs m H z Rm := o in (0 < m)%N /\ fits n m /\ fits m n /\ fits m 1 /\ fits m m.
Definition tw_fits (w : tworld R n) : Prop :=
  (0 < n)%N /\ fits n 1 /\ fits n n /\ List.Forall ct_fits (tw_ct w) /\ List.Forall ob_fits (tw_ob w).

Lemma rep_abs w : world_abs n (rep w) = w.
Proof.
case: w => A Q [x P] ct ob; rewrite /world_abs /rep /kf_est /= !mx_of; congr TW.
  by elim: ct => [|[m B u Qc] ct IH] //=; rewrite !mx_of IH.
by elim: ob => [|[m H z Rm] ob IH] //=; rewrite !mx_of IH.
Qed.

Lemma rep_ok w : tw_fits w -> world_ok c n (rep w).
Proof.
case: w => A Q [x P] ct ob [/ssrnat.leP Hn [F1 [F2 [/= Fc Fo]]]]; split=> //; split; last first.
  rewrite /ob_dims /=; elim: Fo => [|[m H z Rm] l [/ssrnat.leP Hm _] _ IH] /=; first exact: List.Forall_nil.
  exact: List.Forall_cons.
split; first by red; do 5 (split; first by [apply: of_mx_valid|apply: zeros_valid]); apply: zeros_valid.
split.
  rewrite /=; elim: Fc => [|[m B u Qc] l [G1 [G2 G3]] _ IH] /=; first exact: List.Forall_nil.
  apply: List.Forall_cons => //; red; do 3 (split; first by [apply: of_mx_valid|apply: zeros_valid]); exact: zeros_valid.
rewrite /=; elim: Fo => [|[m H z Rm] l [_ [G1 [G2 [G3 G4]]]] _ IH] /=; first exact: List.Forall_nil.
apply: List.Forall_cons => //; red; do 9 (split; first by [apply: of_mx_valid|apply: zeros_valid]); exact: zeros_valid.
Qed.

(** the call that means [t] *)
Definition dim_at (l : seq nat) (i : nat) : nat := if nth_error l i is Some m then m else 0%N.
Definition cl m (F : 'cV[R]_n -> 'cV[R]_m) (x out : seq R) : res (seq R) := Ok (put out (of_mx (F (mx n 1 x)))).
Definition rep_op (cd od : seq nat) (t : top R n) : op R :=
  match t with
  | TPredict => OPredict
  | TTuned l => OPredictTuned l
  | TPredictNl F => OPredictNonlinear (cl F)
  | TTunedNl l F => OPredictTunedNonlinear l (cl F)
  | TControl i => OControl i
  | TCorrect j => OCorrect j
  | TCorrectNl j F => OCorrectNonlinear j (cl (F (dim_at od j)))
  | TSetA M => OSetA (of_mx M) | TSetX v => OSetX (of_mx v) | TSetP M => OSetP (of_mx M) | TSetQ M => OSetQ (of_mx M)
  | TSetB i M => OSetB i (of_mx (M (dim_at cd i)))
  | TSetU i v => OSetU i (of_mx (v (dim_at cd i)))
  | TSetCQ i M => OSetCQ i (of_mx (M (dim_at cd i)))
  | TSetH j M => OSetH j (of_mx (M (dim_at od j)))
  | TSetZ j v => OSetZ j (of_mx (v (dim_at od j)))
  | TSetR j M => OSetR j (of_mx (M (dim_at od j)))
  end.

Lemma cl_computes m (F : 'cV[R]_n -> 'cV[R]_m) : computes c F (cl F).
Proof.
move=> x out Hx Ho; eexists; split; first reflexivity; split; first exact: put_valid.
by rewrite (@mx_put R c) // ?length_of_mx // mx_of.
Qed.

Lemma rep_denotes (w : world R) t : @denotes R c n w (rep_op (ct_dims w) (ob_dims w) t) t.
Proof.
case: t => //=; try by move=> *; try split=> //; rewrite ?length_of_mx ?mx_of //; apply: cl_computes.
all: rewrite /dim_at => i M; split=> //.
all: case: (nth_error _ _) => // m; rewrite ?length_of_mx ?mx_of //; exact: cl_computes.
Qed.

Lemma rep_program (tw : tworld R n) (ts : seq (top R n)) : tw_fits tw ->
  exists w os, world_ok c n w /\ world_abs n w = tw /\ List.Forall2 (@denotes R c n w) os ts.
Proof.
move=> F; exists (rep tw), (List.map (rep_op (ct_dims (rep tw)) (ob_dims (rep tw))) ts); split; first exact: rep_ok.
split; first exact: rep_abs.
by elim: ts => [|t ts IH] /=; constructor=> //; apply: rep_denotes.
Qed.
End Represent.

Lemma fits64 r s : (r * s <= 1000)%N -> fits cfg64 r s.
Proof. by move=> /ssrnat.leP H; rewrite /fits imax64; lia. Qed.
