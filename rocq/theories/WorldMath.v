(** * Proofs about whole textbook histories *)
From Verif Require Import Spec SpecExact SpecHistory SpecWorld Zmod Psd KMath.
From mathcomp Require Import all_ssreflect all_algebra.
From Coq Require Import Permutation.
Set Implicit Arguments.
Unset Strict Implicit.
Unset Printing Implicit Defensive.
Import Order.TTheory GRing.Theory Num.Theory.
Local Open Scope ring_scope.

Section WorldMath.
Variable R : rcfType.
Variable n : nat.
Implicit Types (w : tworld R n) (t : top R n) (s : est R n).

Lemma Fnth {A} (P : A -> Prop) l i v : List.Forall P l -> nth_error l i = Some v -> P v.
Proof. by move=> H; elim: H i => [|a l' Ha _ IH] [|i] //=; [case=> <-|apply: IH]. Qed.
Lemma Falter {A} (P : A -> Prop) g l i : List.Forall P l -> (forall v, nth_error l i = Some v -> P v -> P (g v)) -> List.Forall P (alter g i l).
Proof.
move=> H; elim: H i => [|a l' Ha Hl IH] [|i] //= Hg; constructor=> //; first exact: Hg.
by apply: IH.
Qed.
Lemma F2nth {A B} (P : A -> B -> Prop) l l' i : List.Forall2 P l l' ->
  match nth_error l i, nth_error l' i with Some v, Some v' => P v v' | None, None => True | _, _ => False end.
Proof. by move=> H; elim: H i => [|a b l1 l2 Ha _ IH] [|i] //=; apply: IH. Qed.
Lemma F2alter {A B} (P : A -> B -> Prop) g h l l' i : List.Forall2 P l l' ->
  (forall v v', nth_error l i = Some v -> P v v' -> P (g v) (h v')) -> List.Forall2 P (alter g i l) (alter h i l').
Proof.
move=> H; elim: H i => [|a b l1 l2 Ha Hl IH] [|i] //= Hg; constructor=> //; first exact: Hg.
by apply: IH.
Qed.

(** ** sane noise stays sane *)
Lemma correct_good (o : tobs R n) s : obs_good o -> psd (e_P s) -> S_ok (e_P s) o /\ psd (e_P (do_correct o s)).
Proof.
case: o => m H z Rm [Hm pR] pP; split; first by split=> //; apply: S_pd.
by rewrite /= -/(Ppost H Rm (e_P s)); apply: Ppost_psd => //; [apply: pd_psd|apply: S_pd].
Qed.

Lemma step_good w t : tw_good w -> op_good w t -> op_ok w t /\ tw_good (tstep w t).
Proof.
move=> [pP [pQ [gc go]]]; case: t => //=.
- by move=> _; split=> //; split=> //; apply: predict_psd.
- by move=> lam Hl; split=> //; split=> //; apply: tuned_psd.
- by move=> F _; split=> //; split=> //=; apply: predict_psd.
- by move=> lam F Hl; split=> //; split=> //=; apply: tuned_psd.
- move=> i _; split=> //; case E: (nth_error _ i) => [k|] //; split=> //=.
  by have := Fnth gc E; case: k {E} => m B u Qc /= pc; apply: control_psd.
- move=> j _; case E: (nth_error _ j) => [o|] //; have [S1 S2] := correct_good (Fnth go E) pP; by split.
- move=> j F _; case E: (nth_error _ j) => [o|] //; have [S1 S2] := correct_good (Fnth go E) pP; split=> //; split=> //=.
  by move: S2 {S1}; case: o {E}.
- by move=> i M _; split=> //; do 3 split=> //; apply: Falter gc _ => -[m B u Qc].
- by move=> i M _; split=> //; do 3 split=> //; apply: Falter gc _ => -[m B u Qc].
- move=> i M; case E: (nth_error _ i) => [k|] pM; split=> //; do 3 split=> //; apply: Falter gc _ => v; rewrite E // => -[<-].
  by move: pM; case: (k).
- by move=> i M _; split=> //; do 3 split=> //; apply: Falter go _ => -[m H z Rm].
- by move=> i M _; split=> //; do 3 split=> //; apply: Falter go _ => -[m H z Rm].
- move=> i M; case E: (nth_error _ i) => [k|] pM; split=> //; do 3 split=> //; apply: Falter go _ => v; rewrite E // => -[<-].
  by move: pM; case: (k) => m H z Rm /= pM [].
Qed.

Lemma run_good w ts : tw_good w -> ops_good w ts -> ops_ok w ts /\ tw_good (trun w ts).
Proof.
elim: ts w => [|t ts IH] w Hw //= [Ht Hts]; have [O1 W1] := step_good Hw Ht.
by have [O2 W2] := IH _ W1 Hts.
Qed.

(** ** order *)
Lemma ctl_dim_eq (k1 k2 : tctl R n) : ctl_le k1 k2 -> ctl_dim k1 = ctl_dim k2.
Proof. by case. Qed.

Lemma correct_le (o1 o2 : tobs R n) s1 s2 : obs_le o1 o2 -> obs_good o1 -> obs_good o2 -> psd (e_P s1) -> psd (e_P s2) ->
  lemx (e_P s1) (e_P s2) -> lemx (e_P (do_correct o1 s1)) (e_P (do_correct o2 s2)).
Proof.
case=> m H z1 z2 R1 R2 HR [_ p1] [_ p2] pP1 pP2 HP /=; rewrite -/(Ppost H R1 (e_P s1)) -/(Ppost H R2 (e_P s2)).
by apply: Ppost_mono => //; [case: pP1|case: pP2|apply: S_pd|apply: S_pd].
Qed.
Lemma nl_P F (o : tobs R n) s : e_P (do_correct_nl F o s) = e_P (do_correct o s).
Proof. by case: o. Qed.

Lemma step_le w1 w2 t1 t2 : tw_good w1 -> tw_good w2 -> tw_le w1 w2 -> top_le w1 t1 t2 -> tw_le (tstep w1 t1) (tstep w2 t2).
Proof.
move=> [pP1 [pQ1 [gc1 go1]]] [pP2 [pQ2 [gc2 go2]]] W; have [EA [HQ [HP [HC HO]]]] := W; rewrite /tw_le.
have mk (A B C D E : Prop) : A -> B -> C -> D -> E -> A /\ B /\ C /\ D /\ E by [].
case: t1; case: t2 => //=.
- by move=> _; rewrite EA; apply: mk=> //; apply: (@predict_mono R n (tw_A w2) _ _ (tw_s w1) (tw_s w2)).
- by move=> l l' [->]; rewrite EA; apply: mk=> //; apply: (@ptuned_mono R n _ (tw_A w2) _ _ (tw_s w1) (tw_s w2)).
- by move=> F F' _; rewrite EA; apply: mk=> //; apply: (@predict_mono R n (tw_A w2) _ _ (tw_s w1) (tw_s w2)).
- by move=> l F l' F' ->; rewrite EA; apply: mk=> //; apply: (@ptuned_mono R n _ (tw_A w2) _ _ (tw_s w1) (tw_s w2)).
- move=> i i' [->]; apply: mk=> //; have := F2nth i HC.
  case: (nth_error _ i) => [k1|] //; case: (nth_error _ i) => [k2|] //; case=> m B u1 u2 Q1 Q2 H; exact: control_mono.
- move=> i i' [->]; apply: mk=> //; have := F2nth i HO.
  case E1: (nth_error _ i) => [k1|] //; case E2: (nth_error _ i) => [k2|] // H; apply: correct_le => //.
    exact: Fnth go1 E1. exact: Fnth go2 E2.
- move=> i F i' F' ->; apply: mk=> //; have := F2nth i HO.
  case E1: (nth_error _ i) => [k1|] //; case E2: (nth_error _ i) => [k2|] // H; rewrite !nl_P; apply: correct_le => //.
    exact: Fnth go1 E1. exact: Fnth go2 E2.
- by move=> M M' [->].
- by move=> i M i' M' [-> ->]; apply: mk=> //; apply: F2alter HC _ => v v' _ [].
- by move=> i M i' M' ->; apply: mk=> //; apply: F2alter HC _ => v v' _ [].
- move=> i M i' M' [-> H]; apply: mk=> //; apply: F2alter HC _ => v v' E; rewrite E in H => L; move: H {E}; case: L => m B u1 u2 Q1 Q2 _ H; by constructor.
- by move=> i M i' M' [-> ->]; apply: mk=> //; apply: F2alter HO _ => v v' _ [].
- by move=> i M i' M' ->; apply: mk=> //; apply: F2alter HO _ => v v' _ [].
- move=> i M i' M' [-> H]; apply: mk=> //; apply: F2alter HO _ => v v' E; rewrite E in H => L; move: H {E}; case: L => m B u1 u2 Q1 Q2 _ H; by constructor.
Qed.

Lemma run_le w1 w2 ts1 ts2 : tw_good w1 -> tw_good w2 -> ops_good w1 ts1 -> ops_good w2 ts2 ->
  tw_le w1 w2 -> tops_le w1 ts1 ts2 -> tw_le (trun w1 ts1) (trun w2 ts2).
Proof.
elim: ts1 w1 w2 ts2 => [|t1 ts1 IH] w1 w2 [|t2 ts2] //= g1 g2 [o1 os1] [o2 os2] L [H Hs].
have [_ g1'] := step_good g1 o1; have [_ g2'] := step_good g2 o2.
by apply: IH => //; apply: step_le.
Qed.

(** ** coordinates *)
Lemma nth_mapo {A B} (g : A -> B) l i : nth_error (List.map g l) i = match nth_error l i with Some v => Some (g v) | None => None end.
Proof. by elim: l i => [|a l IH] [|i] //=. Qed.
Lemma map_alter {A B} (g : A -> B) (h : A -> A) (h' : B -> B) i l : (forall v, g (h v) = h' (g v)) ->
  List.map g (alter h i l) = alter h' i (List.map g l).
Proof. by move=> H; elim: l i => [|a l IH] [|i] //=; rewrite ?H ?IH. Qed.

Lemma update_coord T m (H : 'M[R]_(m, n)) Rm y s : T \in unitmx ->
  t_update (H *m invmx T) Rm y (est_coord T s) = est_coord T (t_update H Rm y s).
Proof.
move=> uT; rewrite /t_update /est_coord /= t_K_coord //; congr Est; first mxzmod.
rewrite !mulmxA mulmxKV //; mxzmod.
Qed.

Lemma step_coord T w t : T \in unitmx -> tstep (tw_coord T w) (op_coord T t) = tw_coord T (tstep w t).
Proof.
move=> uT; case: t => //=; rewrite /tw_coord /tw_est /=.
- by congr TW; apply: predict_coord.
- by move=> lam; congr TW; apply: tuned_coord.
- move=> F; rewrite mulKmx //; congr TW; rewrite /est_coord /=; congr Est.
  by have [_] := predict_coord (tw_A w) (tw_Q w) (tw_s w) uT.
- move=> lam F; rewrite mulKmx //; congr TW; rewrite /est_coord /=; congr Est.
  by have [_] := tuned_coord lam (tw_A w) (tw_Q w) (tw_s w) uT.
- move=> i; congr TW; rewrite nth_mapo; case: (nth_error _ i) => [[m B u Qc]|] //=; exact: control_coord.
- move=> i; congr TW; rewrite nth_mapo; case: (nth_error _ i) => [[m H z Rm]|] //=; exact: correct_coord.
- move=> i F; congr TW; rewrite nth_mapo; case: (nth_error _ i) => [[m H z Rm]|] //=; rewrite mulKmx //; exact: update_coord.
- by move=> i M; congr TW; apply/esym/map_alter => -[].
- by move=> i M; congr TW; apply/esym/map_alter => -[].
- by move=> i M; congr TW; apply/esym/map_alter => -[].
- by move=> i M; congr TW; apply/esym/map_alter => -[].
- by move=> i M; congr TW; apply/esym/map_alter => -[].
- by move=> i M; congr TW; apply/esym/map_alter => -[].
Qed.
Lemma run_coord T w ts : T \in unitmx -> trun (tw_coord T w) (List.map (op_coord T) ts) = tw_coord T (trun w ts).
Proof. by move=> uT; elim: ts w => [|t ts IH] w //=; rewrite step_coord. Qed.
Lemma op_ok_coord T w t : T \in unitmx -> op_ok w t -> op_ok (tw_coord T w) (op_coord T t).
Proof.
move=> uT; case: t => //= i; [|move=> F]; rewrite nth_mapo; case: (nth_error _ i) => [[m H z Rm]|] //=;
  by rewrite t_S_coord.
Qed.
Lemma ops_ok_coord T w ts : T \in unitmx -> ops_ok w ts -> ops_ok (tw_coord T w) (List.map (op_coord T) ts).
Proof.
move=> uT; elim: ts w => [|t ts IH] w //= [Ho Hs]; split; first exact: op_ok_coord.
by rewrite step_coord //; apply: IH.
Qed.

(** ** scaling of all covariances *)
Lemma S_scale a m (H : 'M[R]_(m, n)) Rm P : t_S H (a *: Rm) (a *: P) = a *: t_S H Rm P.
Proof. by rewrite /t_S -scalemxAr -scalemxAl scalerDr. Qed.
Lemma update_scale a m (H : 'M[R]_(m, n)) Rm y s : a != 0 -> t_S H Rm (e_P s) \in unitmx ->
  t_update H (a *: Rm) y (Est (e_x s) (a *: e_P s)) =
  Est (e_x (t_update H Rm y s)) (a *: e_P (t_update H Rm y s)).
Proof.
case: s => x P /= Ha uS; rewrite /t_update /=.
have EK : t_K H (a *: Rm) (a *: P) = t_K H Rm P.
  rewrite /t_K S_scale -scalemxAl invmxZ ?unitmxZ ?unitfE // -scalemxAl -scalemxAr scalerA.
  by rewrite divff // scale1r.
by rewrite EK; congr Est; rewrite -scalemxAr -scalemxAr scalerBr.
Qed.
Lemma pdZ m (M : 'M[R]_m) a : 0 < a -> pd M -> pd (a *: M).
Proof.
move=> Ha [sM H]; split; first by rewrite /sym linearZ /= sM.
by move=> v /H Hv; rewrite /qf -scalemxAr -scalemxAl mxE mulr_gt0.
Qed.
Lemma step_scale a w t : 0 < a -> op_ok w t -> tstep (tw_scale a w) (op_scale a t) = tw_scale a (tstep w t).
Proof.
move=> Ha; have Ha' := lt0r_neq0 Ha; case: t => //=; rewrite /tw_scale /tw_est /=.
- by move=> _; congr TW; apply: predict_scale.
- by move=> lam Hl; congr TW; apply: tuned_scale.
- by move=> F _; congr TW; congr Est; have [] := predict_scale a (tw_A w) (tw_Q w) (tw_s w).
- by move=> lam F _; congr TW; congr Est; have [] := tuned_scale a lam (tw_A w) (tw_Q w) (tw_s w).
- move=> i _; congr TW; rewrite nth_mapo; case: (nth_error _ i) => [[m B u Qc]|] //=; exact: control_scale.
- move=> i; rewrite nth_mapo; case: (nth_error _ i) => [[m H z Rm]|] //= [_ pS]; congr TW; apply: correct_scale => //; exact: pd_unit.
- move=> i F; rewrite nth_mapo; case: (nth_error _ i) => [[m H z Rm]|] //= [_ pS]; congr TW.
  apply: (@update_scale a m H Rm _ (tw_s w)) => //; exact: pd_unit.
- by move=> i M _; congr TW; apply/esym/map_alter => -[].
- by move=> i M _; congr TW; apply/esym/map_alter => -[].
- by move=> i M _; congr TW; apply/esym/map_alter => -[].
- by move=> i M _; congr TW; apply/esym/map_alter => -[].
- by move=> i M _; congr TW; apply/esym/map_alter => -[].
- by move=> i M _; congr TW; apply/esym/map_alter => -[].
Qed.
Lemma op_ok_scale a w t : 0 < a -> op_ok w t -> op_ok (tw_scale a w) (op_scale a t).
Proof.
move=> Ha; case: t => //= i; [|move=> F]; rewrite nth_mapo; case: (nth_error _ i) => [[m H z Rm]|] //= [Hm pS];
  by split=> //; rewrite S_scale; apply: pdZ.
Qed.
Lemma run_scale a w ts : 0 < a -> ops_ok w ts ->
  ops_ok (tw_scale a w) (List.map (op_scale a) ts) /\ trun (tw_scale a w) (List.map (op_scale a) ts) = tw_scale a (trun w ts).
Proof.
move=> Ha; elim: ts w => [|t ts IH] w //= [Ho Hs]; rewrite step_scale //.
by have [O1 E1] := IH _ Hs; split=> //; split=> //; apply: op_ok_scale.
Qed.

(** ** superposition *)
Lemma A3nth {A} (P : A -> A -> A -> Prop) l1 l2 l3 i : all3 P l1 l2 l3 ->
  match nth_error l1 i, nth_error l2 i, nth_error l3 i with
  | Some v1, Some v2, Some v3 => P v1 v2 v3 | None, None, None => True | _, _, _ => False end.
Proof. by move=> H; elim: H i => [|x y z m1 m2 m3 Hx _ IH] [|i] //=; apply: IH. Qed.
Lemma A3alter {A} (P : A -> A -> A -> Prop) g1 g2 g3 l1 l2 l3 i : all3 P l1 l2 l3 ->
  (forall v1 v2 v3, nth_error l3 i = Some v3 -> P v1 v2 v3 -> P (g1 v1) (g2 v2) (g3 v3)) -> all3 P (alter g1 i l1) (alter g2 i l2) (alter g3 i l3).
Proof.
move=> H; elim: H i => [|x y z m1 m2 m3 Hx Hl IH] [|i] //= Hg; constructor=> //; first exact: Hg.
by apply: IH.
Qed.

Lemma top_linX a b w v t2 t3 : top_lin a b w (TSetX v) t2 t3 -> exists v2, t2 = TSetX v2 /\ t3 = TSetX (a *: v + b *: v2).
Proof. by destruct t2, t3; simpl; try (by case); move=> ->; eexists. Qed.
Lemma top_linU a b w i v t2 t3 : top_lin a b w (TSetU i v) t2 t3 -> exists v2 v3, t2 = TSetU i v2 /\ t3 = TSetU i v3 /\
  (if nth_error (tw_ct w) i is Some k then let m := ctl_dim k in v3 m = a *: v m + b *: v2 m else True).
Proof. by destruct t2, t3; simpl; try (by case); move=> [-> [-> H]]; do 2 eexists. Qed.
Lemma top_linZ a b w i v t2 t3 : top_lin a b w (TSetZ i v) t2 t3 -> exists v2 v3, t2 = TSetZ i v2 /\ t3 = TSetZ i v3 /\
  (if nth_error (tw_ob w) i is Some k then let m := obs_dim k in v3 m = a *: v m + b *: v2 m else True).
Proof. by destruct t2, t3; simpl; try (by case); move=> [-> [-> H]]; do 2 eexists. Qed.

Lemma step_lin a b w1 w2 w3 t1 t2 t3 : tw_lin a b w1 w2 w3 -> top_lin a b w3 t1 t2 t3 ->
  tw_lin a b (tstep w1 t1) (tstep w2 t2) (tstep w3 t3).
Proof.
case: w1 => A1 Q1 [x1 P1] C1 O1; case: w2 => A2 Q2 [x2 P2] C2 O2; case: w3 => A Q [x P] C O.
rewrite /tw_lin /= => -[-> [-> [-> [-> [-> [-> [-> [HC HO]]]]]]]].
have mk (X1 X2 X3 X4 X5 X6 X7 X8 X9 : Prop) : X1 -> X2 -> X3 -> X4 -> X5 -> X6 -> X7 -> X8 -> X9 ->
  X1 /\ X2 /\ X3 /\ X4 /\ X5 /\ X6 /\ X7 /\ X8 /\ X9 by [].
case: t1.
- by move=> [<- ->] /=; apply: mk => //; rewrite mulmxDr -!scalemxAr.
- by move=> lam [<- ->] /=; apply: mk => //; rewrite mulmxDr -!scalemxAr.
- by [].
- by [].
- move=> i [<- ->] /=; have := A3nth i HC; case: (nth_error C1 i) => [k1|]; case: (nth_error C2 i) => [k2|]; case: (nth_error C i) => [k3|] //= H.
  case: H => m B u1 u2 Qc /=; apply: mk => //; rewrite mulmxDr -!scalemxAr !scalerDr; zmod.
- move=> i [<- ->] /=; have := A3nth i HO; case: (nth_error O1 i) => [k1|]; case: (nth_error O2 i) => [k2|]; case: (nth_error O i) => [k3|] //= H.
  case: H => m H z1 z2 Rm /=; apply: mk => //; set K := t_K _ _ _.
  by rewrite !mulmxDr !mulmxN !mulmxDr -!scalemxAr !scalerDr !scalerN; zmod.
- by [].
- by move=> M [<- ->] /=; apply: mk.
- by move=> v /top_linX [v2 [-> ->]] /=; apply: mk.
- by move=> M [<- ->] /=; apply: mk.
- by move=> M [<- ->] /=; apply: mk.
- by move=> i M [<- ->] /=; apply: mk=> //; apply: A3alter HC _ => v1 v2 v3 _ [].
- move=> i v /top_linU [v2 [v3 [-> [-> /= H]]]] /=; apply: mk=> //; apply: A3alter HC _ => k1 k2 k3 E; rewrite E in H => L; move: H {E}; case: L => m B u1 u2 Qc /= ->; by constructor.
- by move=> i M [<- ->] /=; apply: mk=> //; apply: A3alter HC _ => v1 v2 v3 _ [].
- by move=> i M [<- ->] /=; apply: mk=> //; apply: A3alter HO _ => v1 v2 v3 _ [].
- move=> i v /top_linZ [v2 [v3 [-> [-> /= H]]]] /=; apply: mk=> //; apply: A3alter HO _ => k1 k2 k3 E; rewrite E in H => L; move: H {E}; case: L => m B u1 u2 Qc /= ->; by constructor.
- by move=> i M [<- ->] /=; apply: mk=> //; apply: A3alter HO _ => v1 v2 v3 _ [].
Qed.
Lemma run_lin a b w1 w2 w3 ts1 ts2 ts3 : tw_lin a b w1 w2 w3 -> tops_lin a b w3 ts1 ts2 ts3 ->
  tw_lin a b (trun w1 ts1) (trun w2 ts2) (trun w3 ts3).
Proof.
elim: ts1 w1 w2 w3 ts2 ts3 => [|t1 ts1 IH] w1 w2 w3 [|t2 ts2] [|t3 ts3] //= W [H Hs].
by apply: IH Hs; apply: step_lin.
Qed.

(** ** the truth *)
Lemma step_err w xt v t :
  e_x (tw_s (tstep w t)) - truth_step w xt v t = err_step w xt v t (e_x (tw_s w) - xt).
Proof.
have E : xt + (e_x (tw_s w) - xt) = e_x (tw_s w) by zmod.
case: t => //=; rewrite ?E.
- by mxzmod.
- by move=> _; mxzmod.
- by move=> F; zmod.
- by move=> _ F; zmod.
- move=> i; case: (nth_error _ i) => [[m B u Qc]|] //=; zmod.
- move=> i; case: (nth_error _ i) => [[m H z Rm]|] //=; mxzmod.
- move=> i F; case: (nth_error _ i) => [[m H z Rm]|] //=; zmod.
Qed.
Lemma run_err w xt ts :
  e_x (tw_s (trun w (map fst ts))) - truth_run w xt ts = err_run w xt ts (e_x (tw_s w) - xt).
Proof. by elim: ts w xt => [|[t v] ts IH] w xt //=; rewrite IH step_err. Qed.

Lemma step_noise_free w v t : noise_free_step w (e_x (tw_s w)) v t -> truth_step w (e_x (tw_s w)) v t = e_x (tw_s (tstep w t)).
Proof.
case=> ->; case: t => //=.
- by rewrite addr0.
- by rewrite addr0.
- by move=> F; rewrite addr0.
- by move=> l F; rewrite addr0.
- by move=> i; case: (nth_error _ i) => [[m B u Qc]|] //=; rewrite addr0.
- by move=> i; case: (nth_error _ i) => [[m H z Rm]|] //= ->; rewrite subrr mulmx0 addr0.
- by move=> i F; case: (nth_error _ i) => [[m H z Rm]|] //= ->; rewrite subrr mulmx0 addr0.
Qed.
Lemma run_noise_free w ts : noise_free w (e_x (tw_s w)) ts ->
  e_x (tw_s (trun w (map fst ts))) = truth_run w (e_x (tw_s w)) ts.
Proof.
elim: ts w => [|[t v] ts IH] w //= [Hn Hs].
by rewrite (step_noise_free Hn) in Hs *; apply: IH.
Qed.

(** ** any order of corrections *)
Lemma corrects_perm w (js js' : seq nat) : Permutation js js' -> tw_good w ->
  trun w (map TCorrect js) = trun w (map TCorrect js').
Proof.
move=> H; elim: H w => [|j l l' _ IH|i j l|l1 l2 l3 _ IH1 _ IH2] w Hw //=.
- by apply: IH; have [_] := step_good Hw (t := TCorrect j) I.
- congr foldl; case: w Hw => A Q s C O [/= pP [pQ [gc go]]]; rewrite /tstep /tw_est /=; congr TW.
  case Ei: (nth_error O i) => [oi|]; case Ej: (nth_error O j) => [oj|] //.
  have := Fnth go Ei; have := Fnth go Ej; case: oi {Ei} => mi Hi zi Ri; case: oj {Ej} => mj Hj zj Rj [_ pj] [_ pi].
  exact: correct_comm.
- by rewrite IH1 // IH2.
Qed.

(** ** k predictions *)
Lemma predicts w k : trun w (nseq k TPredict) = tw_est w (iter k (t_predict (tw_A w) (tw_Q w)) (tw_s w)).
Proof.
elim: k w => [|k IH] w; first by case: w.
by rewrite [nseq _ _]/= [trun _ _]/= -/(trun _ _) IH /tw_est /= -iterSr.
Qed.

End WorldMath.
