(** * Proofs about random systems *)
From Verif Require Import Spec SpecExact SpecHistory SpecWorld SpecProb Zmod Psd KMath WorldMath.
From mathcomp Require Import all_ssreflect all_algebra.
Set Implicit Arguments.
Unset Strict Implicit.
Unset Printing Implicit Defensive.
Import Order.TTheory GRing.Theory Num.Theory.
Local Open Scope ring_scope.

Section ProbMath.
Variable R : rcfType.

(** ** expectations *)
Section Expect.
Variables (A B : Type) (D1 : dist R A) (D2 : dist R B).
Lemma expectM k l l' (D : dist R A) (M : 'M[R]_(k, l)) (f : A -> 'M[R]_(l, l')) : expect D (fun a => M *m f a) = M *m expect D f.
Proof. by rewrite /expect mulmx_sumr; apply: eq_bigr => o _; rewrite scalemxAr. Qed.
Lemma expectMr k l l' (D : dist R A) (M : 'M[R]_(l, l')) (f : A -> 'M[R]_(k, l)) : expect D (fun a => f a *m M) = expect D f *m M.
Proof. by rewrite /expect mulmx_suml; apply: eq_bigr => o _; rewrite scalemxAl. Qed.
Lemma expectD k l (D : dist R A) (f g : A -> 'M[R]_(k, l)) : expect D (fun a => f a + g a) = expect D f + expect D g.
Proof. by rewrite /expect -big_split; apply: eq_bigr => o _; rewrite scalerDr. Qed.
Lemma expectC k l (D : dist R A) (M : 'M[R]_(k, l)) : expect D (fun=> M) = mass D *: M.
Proof. by rewrite /expect /mass scaler_suml. Qed.
Lemma expectT k l (D : dist R A) (f : A -> 'M[R]_(k, l)) : expect D (fun a => (f a)^T) = (expect D f)^T.
Proof. by rewrite /expect linear_sum; apply: eq_bigr => o _; rewrite linearZ. Qed.
Lemma eq_expect k l (D : dist R A) (f g : A -> 'M[R]_(k, l)) : (forall a, f a = g a) -> expect D f = expect D g.
Proof. by move=> E; apply: eq_bigr => o _; rewrite E. Qed.
End Expect.

(** drawing twice *)
Definition dbind (A B : Type) (D : dist R A) (F : A -> dist R B) : dist R B :=
  flatten [seq [seq (a.1 * b.1, b.2) | b <- F a.2] | a <- D].
Lemma expect_bind A B k l (D : dist R A) (F : A -> dist R B) (f : B -> 'M[R]_(k, l)) :
  expect (dbind D F) f = expect D (fun a => expect (F a) f).
Proof.
rewrite /expect /dbind big_flatten big_map; apply: eq_bigr => a _; rewrite big_map scaler_sumr.
by apply: eq_bigr => b _; rewrite scalerA.
Qed.
Lemma mass_bind A B (D : dist R A) (F : A -> dist R B) : (forall a, mass (F a) = 1) -> mass (dbind D F) = mass D.
Proof.
move=> H; rewrite /mass /dbind big_flatten big_map; apply: eq_bigr => a _; rewrite big_map -mulr_sumr.
by rewrite -/(mass _) H mulr1.
Qed.
Definition dmap A B (g : A -> B) (D : dist R A) : dist R B := [seq (a.1, g a.2) | a <- D].
Lemma expect_map A B k l (g : A -> B) (D : dist R A) (f : B -> 'M[R]_(k, l)) : expect (dmap g D) f = expect D (fun a => f (g a)).
Proof. by rewrite /expect /dmap big_map. Qed.
Lemma mass_map A B (g : A -> B) (D : dist R A) : mass (dmap g D) = mass D.
Proof. by rewrite /mass /dmap big_map. Qed.

(** the error M e + G v with v drawn independently *)
Lemma affine_mean A n p k (D : dist R A) (V : dist R (noise R)) (e : A -> 'cV[R]_n) (M : 'M[R]_(p, n)) (G : 'M[R]_(p, k)) (C : 'M[R]_k) :
  centred V C -> expect D e = 0 ->
  expect D (fun a => expect V (fun v => M *m e a + G *m v k)) = 0.
Proof.
move=> [T [m0 _]] e0.
rewrite (@eq_expect _ _ _ _ _ (fun a => M *m e a)).
  by rewrite expectM e0 mulmx0.
by move=> a; rewrite expectD expectC T scale1r expectM m0 mulmx0 addr0.
Qed.
Lemma affine_cov A n p k (D : dist R A) (V : dist R (noise R)) (e : A -> 'cV[R]_n) (M : 'M[R]_(p, n)) (G : 'M[R]_(p, k)) (C : 'M[R]_k) P :
  centred V C -> mass D = 1 -> expect D e = 0 -> expect D (fun a => e a *m (e a)^T) = P ->
  expect D (fun a => expect V (fun v => (M *m e a + G *m v k) *m (M *m e a + G *m v k)^T)) = M *m P *m M^T + G *m C *m G^T.
Proof.
move=> [T [m0 c0]] TD e0 eP.
rewrite (@eq_expect _ _ _ _ _ (fun a => M *m (e a *m (e a)^T) *m M^T + G *m C *m G^T)).
  by rewrite expectD expectMr expectM eP expectC TD scale1r.
move=> a; rewrite (@eq_expect _ _ _ _ _ (fun v => (M *m (e a *m (e a)^T) *m M^T + M *m e a *m (v k)^T *m G^T) + (G *m v k *m (M *m e a)^T + G *m (v k *m (v k)^T) *m G^T))).
  rewrite expectD expectD expectC T scale1r expectD !expectMr !expectM expectT m0 c0 trmx0 !mulmx0 !mul0mx addr0 add0r //.
by move=> v; rewrite linearD /= !trmx_mul mulmxDl !mulmxDr !mulmxA.
Qed.

Section World.
Variable n : nat.
Implicit Types (w : tworld R n) (s : sop R n).

(** same matrices and covariance *)
Inductive ctl_cov : tctl R n -> tctl R n -> Prop :=
| CtlCov m (B : 'M[R]_(n, m)) u1 u2 Qc : ctl_cov (TCtl B u1 Qc) (TCtl B u2 Qc).
Inductive obs_cov : tobs R n -> tobs R n -> Prop :=
| ObsCov m (H : 'M[R]_(m, n)) z1 z2 Rm : obs_cov (TObs H z1 Rm) (TObs H z2 Rm).
Lemma ctl_covE k1 k2 : ctl_cov k1 k2 -> let: TCtl m B u Qc := k1 in exists u2, k2 = TCtl B u2 Qc.
Proof. by case=> m B u1 u2 Qc; exists u2. Qed.
Lemma obs_covE k1 k2 : obs_cov k1 k2 -> let: TObs m H z Rm := k1 in exists z2, k2 = TObs H z2 Rm.
Proof. by case=> m H z1 z2 Rm; exists z2. Qed.
Definition tw_cov w1 w2 : Prop :=
  tw_A w1 = tw_A w2 /\ tw_Q w1 = tw_Q w2 /\ e_P (tw_s w1) = e_P (tw_s w2) /\
  List.Forall2 ctl_cov (tw_ct w1) (tw_ct w2) /\ List.Forall2 obs_cov (tw_ob w1) (tw_ob w2).
Lemma tw_cov_refl w : tw_cov w w.
Proof.
do 3 split=> //; split.
- by elim: (tw_ct w) => [|[]]; constructor.
- by elim: (tw_ob w) => [|[]]; constructor.
Qed.

Lemma nth_alter_same {A} (g : A -> A) l i v : nth_error l i = Some v -> nth_error (alter g i l) i = Some (g v).
Proof. by elim: l i => [|a l IH] [|i] //=; [case=> ->|apply: IH]. Qed.

(** what a measurement does *)
Lemma measure_do w j m (H : 'M[R]_(m, n)) z z' Rm : nth_error (tw_ob w) j = Some (TObs H z Rm) ->
  let w' := trun w [:: TSetZ j (fun m' => conform_mx 0 z'); TCorrect j] in
  tw_A w' = tw_A w /\ tw_Q w' = tw_Q w /\ tw_s w' = t_correct H Rm z' (tw_s w) /\ tw_ct w' = tw_ct w /\
  tw_ob w' = alter (fun o => let: TObs m H z Rm := o in TObs H (conform_mx 0 z') Rm) j (tw_ob w).
Proof. by move=> E /=; rewrite (nth_alter_same _ E) /= conform_mx_id. Qed.

(** what is needed for a step to succeed and to leave the same matrices whatever is drawn *)
Definition sop_runs w s : Prop :=
  mass (sdist s) = 1 /\
  match s with
  | STuned lam _ => lam != 0
  | SMeasure j D => if nth_error (tw_ob w) j is Some o then S_ok (e_P (tw_s w)) o else True
  | SSet (TSetA _) | SSet (TSetQ _) | SSet (TSetB _ _) | SSet (TSetCQ _ _) | SSet (TSetH _ _) | SSet (TSetR _ _) => True
  | SSet _ => False
  | _ => True
  end.
Fixpoint sops_runs w (ss : seq (sop R n)) : Prop :=
  match ss with [::] => True | s :: ss => sop_runs w s /\ sops_runs (trun w (sdo w 0 s (@no_noise R)).1) ss end.
Lemma mass1 (v : noise R) : mass [:: (1 : R, v)] = 1.
Proof. by rewrite /mass big_cons big_nil addr0. Qed.
Lemma sop_mass w s : sop_ok w s -> mass (sdist s) = 1.
Proof.
case: s => [D|lam D|i D|j D|i g|t] /=; try by move=> *; apply: mass1.
- by case.
- by case=> _ [].
- by case: (nth_error _ i) => [[m B u Qc]|] // -[].
- by case: (nth_error _ j) => [[m B u Qc]|] // -[[]].
Qed.
Lemma sop_ok_runs w s : sop_ok w s -> sop_runs w s.
Proof.
move=> H; split; first exact: sop_mass H.
case: s H => [D|lam D|i D|j D|i g|t] //=.
- by case=> E _; apply: contra_eq_neq E => ->; rewrite expr0n /= eq_sym oner_eq0.
- by case: (nth_error _ j) => [[m B u Qc]|] // -[].
Qed.
Lemma sops_ok_runs w ss : sops_ok w ss -> sops_runs w ss.
Proof. by elim: ss w => [|s ss IH] w //= [H1 H2]; split; [apply: sop_ok_runs|apply: IH]. Qed.

Lemma step_cov w1 w2 s x1 x2 v1 v2 : tw_cov w1 w2 -> sop_runs w1 s ->
  tw_cov (trun w1 (sdo w1 x1 s v1).1) (trun w2 (sdo w2 x2 s v2).1).
Proof.
move=> Hc; have [EA [EQ [EP [FC FO]]]] := Hc; case: s => [D|lam D|i D|j D|i g|t] [_ Ho].
- by rewrite /tw_cov /= EA EQ EP.
- by rewrite /tw_cov /= EA EQ EP.
- rewrite /tw_cov /= EA EQ; do 2 split=> //; have := F2nth i FC.
  by case: (nth_error _ i) => [k1|]; case: (nth_error _ i) => [k2|] //; case=> m B u1 u2 Qc /=; rewrite EP.
- move: Ho; rewrite /=; have := F2nth j FO.
  case E1: (nth_error _ j) => [k1|]; case E2: (nth_error _ j) => [k2|] // H; case: H E1 E2 => m H z1 z2 Rm E1 E2 _.
  have [a1 [q1 [s1 [c1 o1]]]] := measure_do (H *m x1 + v1 m) E1; have [a2 [q2 [s2 [c2 o2]]]] := measure_do (H *m x2 + v2 m) E2.
  rewrite /tw_cov a1 q1 s1 c1 o1 a2 q2 s2 c2 o2 /= EP; do 4 split=> //.
  by apply: F2alter FO _ => ? ? _ [] *; constructor.
- by rewrite /tw_cov /=; do 4 split=> //; apply: F2alter FC _ => ? ? _ [] *; constructor.
- case: t Ho => //= *; rewrite /tw_cov /=; do 4 (split=> //).
  + by apply: F2alter FC _ => ? ? _ [] *; constructor.
  + by apply: F2alter FC _ => ? ? _ [] *; constructor.
  + by apply: F2alter FO _ => ? ? _ [] *; constructor.
  + by apply: F2alter FO _ => ? ? _ [] *; constructor.
Qed.

Definition err (o : tworld R n * 'cV[R]_n) : 'cV[R]_n := e_x (tw_s o.1) - o.2.
Definition snext (o : tworld R n * 'cV[R]_n) s v : tworld R n * 'cV[R]_n := (trun o.1 (sdo o.1 o.2 s v).1, (sdo o.1 o.2 s v).2).

Lemma centred0 (D : dist R (noise R)) : mass D = 1 -> centred D (0 : 'M[R]_0).
Proof. by move=> T; split=> //; split; apply/matrixP=> -[]. Qed.

Lemma step_affine w s : sop_ok w s -> sym (e_P (tw_s w)) ->
  exists k (M : 'M[R]_n) (G : 'M[R]_(n, k)) (C : 'M[R]_k), centred (sdist s) C /\
    M *m e_P (tw_s w) *m M^T + G *m C *m G^T = e_P (tw_s (trun w (sdo w 0 s (@no_noise R)).1)) /\
    forall o v, tw_cov w o.1 -> err (snext o s v) = M *m err o + G *m v k.
Proof.
move=> Ho sP.
have triv (D : dist R (noise R)) : mass D = 1 -> sdist s = D -> tw_s (trun w (sdo w 0 s (@no_noise R)).1) = tw_s w ->
   (forall o v, tw_cov w o.1 -> err (snext o s v) = err o) ->
   exists k (M : 'M[R]_n) (G : 'M[R]_(n, k)) (C : 'M[R]_k), centred (sdist s) C /\
    M *m e_P (tw_s w) *m M^T + G *m C *m G^T = e_P (tw_s (trun w (sdo w 0 s (@no_noise R)).1)) /\
    forall o v, tw_cov w o.1 -> err (snext o s v) = M *m err o + G *m v k.
  move=> T ED ES EE; exists 0%N, 1%:M, 0, 0; rewrite ED; split; first exact: centred0.
  rewrite ES trmx1 mulmx1 mul1mx mulmx0 mul0mx addr0; split=> // o v H.
  by rewrite EE // mul1mx mul0mx addr0.
case: s Ho triv => [D|lam D|i D|j D|i g|t] Ho triv.
- exists n, (tw_A w), (- 1%:M), (tw_Q w); split=> //; split.
    by rewrite /= linearN /= trmx1 mulmxN mulNmx mulmx1 mul1mx opprK.
  by move=> [w' xt] v [EA _]; rewrite /err /= -EA; mxzmod.
- case: Ho => E Ho; exists n, (tw_A w), (- 1%:M), (tw_Q w); split=> //; split.
    by rewrite /= E invr1 scale1r linearN /= trmx1 mulmxN mulNmx mulmx1 mul1mx opprK.
  by move=> [w' xt] v [EA _]; rewrite /err /= -EA; mxzmod.
- move: Ho triv; rewrite /=; case E: (nth_error _ i) => [[m B u Qc]|] Ho triv.
  + exists m, 1%:M, (- B), Qc; split=> //; split.
      by rewrite /= trmx1 mulmx1 mul1mx linearN /= mulmxN !mulNmx opprK.
    move=> [w' xt] v [_ [_ [_ [FC _]]]]; rewrite /err /=; have := F2nth i FC; rewrite E.
    case: (nth_error _ i) => [k2|] // /ctl_covE [u2 ->] /=; mxzmod.
  + apply: (triv D) => // -[w' xt] v [_ [_ [_ [FC _]]]]; rewrite /err /=; have := F2nth i FC; rewrite E.
    by case: (nth_error _ i).
- move: Ho triv; rewrite /=; case E: (nth_error _ j) => [[m H z Rm]|] Ho triv.
  + have [Hc [Hm pS]] := Ho; set K := t_K H Rm (e_P (tw_s w)).
    exists m, (1%:M - K *m H), K, Rm; split=> //; split.
      have [_ [_ [-> _]]] := measure_do (H *m 0 + @no_noise R m) E.
      by rewrite t_correct_P -(joseph_K sP pS).
    move=> [w' xt] v [_ [_ [EP [_ FO]]]]; rewrite /snext /err /= in EP *; have := F2nth j FO; rewrite E.
    case E2: (nth_error _ j) => [k2|] // /obs_covE [z2 Ek]; rewrite {}Ek in E2 *; rewrite -/(trun _ _).
    have [_ [_ [-> _]]] := measure_do (H *m xt + v m) E2; rewrite /= -EP -/K.
    by mxzmod.
  + apply: (triv D) => // -[w' xt] v [_ [_ [_ [_ FO]]]]; rewrite /err /snext /=; have := F2nth j FO; rewrite E.
    by case: (nth_error _ j).
- by apply: (triv [:: (1, @no_noise R)]) => //; apply: mass1.
- by apply: (triv [:: (1, @no_noise R)]) => //; [apply: mass1|case: t Ho triv|case: t Ho triv].
Qed.

Lemma eq_expect_in A k l (D : dist R A) (f g : A -> 'M[R]_(k, l)) : List.Forall (fun o => f o.2 = g o.2) D -> expect D f = expect D g.
Proof. by rewrite /expect; elim=> [|o l' E _ IH]; rewrite ?big_nil // !big_cons E IH. Qed.
Lemma Forall_flat A B (P : B -> Prop) (F : A -> seq B) l : (forall a, List.Forall P (F a)) -> List.Forall P (flatten [seq F a | a <- l]).
Proof. by move=> H; elim: l => [|a l IH] /=; [constructor|apply/List.Forall_app; split]. Qed.
Lemma Forall_map' A B (P : B -> Prop) (f : A -> B) l : List.Forall (fun a => P (f a)) l -> List.Forall P [seq f a | a <- l].
Proof. by elim=> [|a l' H _ IH] /=; constructor. Qed.
Lemma Forall_imp A (P Q : A -> Prop) l : (forall a, P a -> Q a) -> List.Forall P l -> List.Forall Q l.
Proof. by move=> H; elim=> [|a l' Ha _ IH]; constructor=> //; apply: H. Qed.

Definition stepD s (D : dist R (tworld R n * 'cV[R]_n)) := dbind D (fun o => dmap (snext o s) (sdist s)).
Definition rstep w s := trun w (sdo w 0 s (@no_noise R)).1.
Definition inv w (D : dist R (tworld R n * 'cV[R]_n)) : Prop :=
  List.Forall (fun o => tw_cov w o.2.1) D /\ mass D = 1 /\ expect D err = 0 /\ expect D (fun o => err o *m (err o)^T) = e_P (tw_s w).


Lemma step_inv w s D : inv w D -> sop_ok w s -> inv (rstep w s) (stepD s D).
Proof.
move=> [F [T [m0 c0]]] Ho.
have sP : sym (e_P (tw_s w)).
  by rewrite /sym -c0 -expectT; apply: eq_expect => o; rewrite trmx_mul trmxK.
have [k [M [G [C [Hc [EP Ea]]]]]] := step_affine Ho sP.
have Ms := sop_mass Ho.
split; [|split; [|split]].
- rewrite /stepD /dbind; elim: F => [|o l H _ IH] /=; first by constructor.
  apply/List.Forall_app; split=> //; apply: Forall_map'; rewrite /dmap; apply: Forall_map'.
  elim: (sdist s) => [|v l' IHv]; constructor=> //=.
  by apply: step_cov => //; apply: sop_ok_runs.
- by rewrite mass_bind ?T // => o; rewrite mass_map.
- rewrite expect_bind (@eq_expect_in _ _ _ _ _ (fun o => expect (sdist s) (fun v => M *m err o + G *m v k))); first exact: (affine_mean _ _ Hc m0).
  by apply: Forall_imp F => o H; rewrite expect_map; apply: eq_expect => v; rewrite Ea.
- rewrite expect_bind (@eq_expect_in _ _ _ _ _ (fun o => expect (sdist s) (fun v => (M *m err o + G *m v k) *m (M *m err o + G *m v k)^T))).
    by rewrite (affine_cov _ _ Hc T m0 c0) EP.
  by apply: Forall_imp F => o H; rewrite expect_map; apply: eq_expect => v; rewrite Ea.
Qed.

Lemma run_inv w ss D : inv w D -> sops_ok w ss -> inv (srun w ss) (foldl (fun D s => stepD s D) D ss).
Proof. by elim: ss w D => [|s ss IH] w D //= H [Ho Hs]; apply: IH Hs; apply: step_inv. Qed.

Lemma trun_cat w ts ts' : trun w (ts ++ ts') = trun (trun w ts) ts'.
Proof. by rewrite /trun foldl_cat. Qed.
Lemma sim_expect k l ss D (f : tworld R n * 'cV[R]_n -> 'M[R]_(k, l)) :
  expect D (fun o => expect (sim o.1 o.2 ss) (fun r => f (trun o.1 r.1, r.2))) = expect (foldl (fun D s => stepD s D) D ss) f.
Proof.
elim: ss D => [|s ss IH] D /=.
  by apply: eq_expect => -[w xt]; rewrite /expect big_cons big_nil addr0 scale1r.
rewrite -IH /stepD expect_bind; apply: eq_expect => -[w xt]; rewrite expect_map /snext /=.
rewrite /expect big_flatten big_map; apply: eq_bigr => v _; case: (sdo w xt s v.2) => ts xt' /=.
by rewrite big_map scaler_sumr; apply: eq_bigr => r _; rewrite scalerA trun_cat.
Qed.
Lemma sim_mass w wr xt ss : tw_cov wr w -> sops_runs wr ss -> mass (sim w xt ss) = 1.
Proof.
elim: ss w wr xt => [|s ss IH] w wr xt Hc /=; first by rewrite /mass big_cons big_nil addr0.
move=> [Ho Hs]; rewrite /mass big_flatten big_map -(proj1 Ho) /mass; apply: eq_bigr => v _.
have C1 := step_cov 0 xt (@no_noise R) v.2 Hc Ho.
case E: (sdo w xt s v.2) => [ts xt']; rewrite E /= in C1; rewrite big_map -mulr_sumr -/(mass _) (IH _ _ _ C1) ?mulr1 //.
Qed.

Lemma ops_ok_cat w (ts ts' : seq (top R n)) : ops_ok w ts -> ops_ok (trun w ts) ts' -> ops_ok w (ts ++ ts').
Proof. by elim: ts w => [|t ts IH] w //= [H1 H2] H3; split=> //; apply: IH. Qed.
Lemma sdo_ok w wr xt s v : tw_cov wr w -> sop_runs wr s -> ops_ok w (sdo w xt s v).1.
Proof.
move=> [_ [_ [EP [_ FO]]]]; rewrite /sop_runs; case: s => [D|lam D|i D|j D|i g|t] //=.
- by case.
- case=> _; have := F2nth j FO; case: (nth_error _ j) => [k1|]; case E: (nth_error _ j) => [k2|] // H.
  case: H E => m H z1 z2 Rm E HS; do 2 split=> //=.
  by rewrite (nth_alter_same _ E) /= -EP.
- by case=> _; case: t.
Qed.
Lemma sim_ok w wr xt ss : tw_cov wr w -> sops_runs wr ss ->
  List.Forall (fun r => ops_ok w r.2.1 /\ tw_cov (srun wr ss) (trun w r.2.1)) (sim w xt ss).
Proof.
elim: ss w wr xt => [|s ss IH] w wr xt Hc /=; first by move=> _; do 2 constructor.
move=> [Ho Hs]; apply: Forall_flat => v.
have C1 := step_cov 0 xt (@no_noise R) v.2 Hc Ho; have O1 := sdo_ok xt v.2 Hc Ho.
case: (sdo w xt s v.2) C1 O1 => ts xt' /= C1 O1; apply: Forall_map'; apply: Forall_imp (IH _ _ xt' C1 Hs) => r /= [H1 H2].
by rewrite trun_cat; split=> //; apply: ops_ok_cat.
Qed.

Theorem sim_from_cov w D0 ss : good_start w D0 -> sops_ok w ss ->
  let outs := sim_from w D0 ss in let e (r : seq (top R n) * 'cV[R]_n) := e_x (tw_s (trun w r.1)) - r.2 in
  List.Forall (fun o => ops_ok w o.2.1 /\ e_P (tw_s (trun w o.2.1)) = e_P (tw_s (srun w ss))) outs /\
  mass outs = 1 /\ expect outs e = 0 /\ expect outs (fun r => e r *m (e r)^T) = e_P (tw_s (srun w ss)).
Proof.
move=> [T [m0 c0]] Hs outs e.
have I0 : inv w (dmap (fun xt => (w, xt)) D0).
  split; [|split; [|split]].
  - by apply: Forall_map'; elim: D0 {T m0 c0 outs} => [|x l IH]; constructor=> //=; apply: tw_cov_refl.
  - by rewrite mass_map.
  - by rewrite expect_map.
  - by rewrite expect_map.
have [_ [T1 [m1 c1]]] := run_inv I0 Hs.
have EE k l (f : tworld R n * 'cV[R]_n -> 'M[R]_(k, l)) : expect outs (fun r => f (trun w r.1, r.2)) =
   expect (foldl (fun D s => stepD s D) (dmap (fun xt => (w, xt)) D0) ss) f.
  rewrite -sim_expect expect_map; exact: (@expect_bind _ _ _ _ D0 (fun x => sim w x ss)).
split; [|split; [|split]].
- apply: Forall_flat => x; apply: Forall_map'; apply: Forall_imp (sim_ok x.2 (tw_cov_refl w) (sops_ok_runs Hs)) => r [H [_ [_ [EP _]]]].
  by rewrite /= EP.
- have -> : outs = dbind D0 (fun x => sim w x ss) by [].
  by rewrite mass_bind // => x; apply: sim_mass (tw_cov_refl w) (sops_ok_runs Hs).
- by rewrite (EE _ _ err).
- by rewrite (EE _ _ (fun o => err o *m (err o)^T)).
Qed.

(** draws in sequence *)
Lemma eq_dbind A B (D : dist R A) (F G : A -> dist R B) : (forall a, F a = G a) -> dbind D F = dbind D G.
Proof. by move=> E; rewrite /dbind; congr flatten; apply: eq_map => a; rewrite E. Qed.
Lemma dbind_ret A B (D : dist R A) (f : A -> B) : dbind D (fun a => [:: (1, f a)]) = dmap f D.
Proof. by rewrite /dbind /dmap; elim: D => [|a D IH] //=; rewrite IH mulr1. Qed.
Lemma ret_dbind A B (a : A) (F : A -> dist R B) : dbind [:: (1, a)] F = F a.
Proof. by rewrite /dbind /= cats0 -[RHS]map_id; apply: eq_map => -[p b]; rewrite mul1r. Qed.
Lemma dbind_cat A B (D1 D2 : dist R A) (F : A -> dist R B) : dbind (D1 ++ D2) F = dbind D1 F ++ dbind D2 F.
Proof. by rewrite /dbind map_cat flatten_cat. Qed.
Lemma dbind_scale A B p (D : dist R A) (F : A -> dist R B) : dbind [seq (p * a.1, a.2) | a <- D] F = [seq (p * b.1, b.2) | b <- dbind D F].
Proof.
rewrite /dbind; elim: D => [|a D IH] //=; rewrite map_cat -IH; congr (_ ++ _).
by rewrite -map_comp; apply: eq_map => b /=; rewrite mulrA.
Qed.
Lemma dbind_assoc A B C (D : dist R A) (F : A -> dist R B) (G : B -> dist R C) : dbind (dbind D F) G = dbind D (fun a => dbind (F a) G).
Proof.
elim: D => [|a D IH] //; rewrite /dbind /= -!/(dbind _ _) dbind_cat IH; congr (_ ++ _).
exact: dbind_scale.
Qed.
Lemma dbind_dmap A B C (g : A -> B) (D : dist R A) (F : B -> dist R C) : dbind (dmap g D) F = dbind D (fun a => F (g a)).
Proof. by rewrite /dbind /dmap -map_comp. Qed.
Lemma dmap_dbind A B C (g : B -> C) (D : dist R A) (F : A -> dist R B) : dmap g (dbind D F) = dbind D (fun a => dmap g (F a)).
Proof.
rewrite /dbind /dmap; elim: D => [|a D IH] //=; rewrite map_cat IH; congr (_ ++ _).
by rewrite -!map_comp.
Qed.
Lemma dmap_dmap A B C (g : B -> C) (f : A -> B) (D : dist R A) : dmap g (dmap f D) = dmap (fun a => g (f a)) D.
Proof. by rewrite /dmap -map_comp. Qed.
Lemma Forall_dbind A B (P : B -> Prop) (D : dist R A) (F : A -> dist R B) :
  List.Forall (fun o => P o.2) (dbind D F) -> List.Forall (fun a => List.Forall (fun o => P o.2) (F a.2)) D.
Proof.
rewrite /dbind; elim: D => [|a D IH] //= /List.Forall_app [H1 H2]; constructor; last exact: IH.
by elim: (F a.2) H1 => [|b l IHl] //= H; constructor; [inversion H|apply: IHl; inversion H].
Qed.

Definition pre (r o : seq (top R n) * 'cV[R]_n) : seq (top R n) * 'cV[R]_n := (r.1 ++ o.1, o.2).
Definition sim1 w xt s : dist R (seq (top R n) * 'cV[R]_n) := dmap (sdo w xt s) (sdist s).
Lemma sim_cons w xt s ss : sim w xt (s :: ss) = dbind (sim1 w xt s) (fun r => dmap (pre r) (sim (trun w r.1) r.2 ss)).
Proof.
rewrite /sim1 dbind_dmap /dbind /=; congr flatten; apply: eq_map => v; case: (sdo w xt s v.2) => ts xt' /=.
by rewrite /dmap -map_comp.
Qed.
Lemma sim_rcons w xt ss s : sim w xt (rcons ss s) = dbind (sim w xt ss) (fun r => dmap (pre r) (sim1 (trun w r.1) r.2 s)).
Proof.
elim: ss w xt => [|s0 ss IH] w xt.
  rewrite [rcons _ _]/= sim_cons /= ret_dbind /=.
  rewrite (@eq_dbind _ _ _ _ (fun r => [:: (1, r)])); last by move=> -[ts x]; rewrite /dmap /pre /= cats0.
  by rewrite dbind_ret /sim1 !dmap_dmap; apply: eq_map => v; rewrite /pre /=; case: (sdo _ _ _ _).
rewrite rcons_cons !sim_cons dbind_assoc; apply: eq_dbind => r; rewrite dbind_dmap IH dmap_dbind; apply: eq_dbind => q.
rewrite dmap_dmap trun_cat; apply: eq_map => v; by rewrite /pre /= catA.
Qed.
End World.
End ProbMath.
