(** * No linear combination of the innovations improves the estimate *)
From Verif Require Import Spec Matrix Filter Extended SpecFilter History SpecGen SpecExact SpecHistory SpecWorld SpecProb SpecBest Zmod Psd KMath FilterExact HistExact WorldMath ProbMath ProbMain ExampleData Represent ExactExamples ProbExamples.
From mathcomp Require Import all_ssreflect all_algebra.
Set Implicit Arguments.
Unset Strict Implicit.
Unset Printing Implicit Defensive.
Import Order.TTheory GRing.Theory Num.Theory.
Local Open Scope ring_scope.

Section BestMath.
Variable R : rcfType.
Variable n : nat.
Implicit Types (w : tworld R n) (s : sop R n).
Local Notation state := ((tworld R n * 'cV[R]_n) * 'cV[R]_n)%type.

Lemma innovation_sum_cat L w ts ts' :
  innovation_sum L w (ts ++ ts') = innovation_sum L w ts + innovation_sum (fun k => L (size ts + k)%N) (trun w ts) ts'.
Proof. by elim: ts L w => [|t ts IH] L w /=; rewrite ?add0r // IH addrA. Qed.

(** one step: the error, and what the rival adds *)
Lemma step_best (L : weights R n) w s : sop_ok w s -> sym (e_P (tw_s w)) ->
  exists k (M : 'M[R]_n) (G : 'M[R]_(n, k)) (C : 'M[R]_k) (X : 'M[R]_n) (Y : 'M[R]_(n, k)), centred (sdist s) C /\
    M *m e_P (tw_s w) *m M^T + G *m C *m G^T = e_P (tw_s (trun w (sdo w 0 s (@no_noise R)).1)) /\
    M *m e_P (tw_s w) *m X^T + G *m C *m Y^T = 0 /\ psd (X *m e_P (tw_s w) *m X^T + Y *m C *m Y^T) /\
    forall o v, tw_cov w o.1 -> err (snext o s v) = M *m err o + G *m v k /\ innovation_sum L o.1 (sdo o.1 o.2 s v).1 = X *m err o + Y *m v k.
Proof.
move=> Ho sP.
have triv : (forall o v, tw_cov w o.1 -> innovation_sum L o.1 (sdo o.1 o.2 s v).1 = 0) ->
  exists k (M : 'M[R]_n) (G : 'M[R]_(n, k)) (C : 'M[R]_k) (X : 'M[R]_n) (Y : 'M[R]_(n, k)), centred (sdist s) C /\
    M *m e_P (tw_s w) *m M^T + G *m C *m G^T = e_P (tw_s (trun w (sdo w 0 s (@no_noise R)).1)) /\
    M *m e_P (tw_s w) *m X^T + G *m C *m Y^T = 0 /\ psd (X *m e_P (tw_s w) *m X^T + Y *m C *m Y^T) /\
    forall o v, tw_cov w o.1 -> err (snext o s v) = M *m err o + G *m v k /\ innovation_sum L o.1 (sdo o.1 o.2 s v).1 = X *m err o + Y *m v k.
  have [k [M [G [C [H1 [H2 H3]]]]]] := step_affine Ho sP.
  move=> H0; exists k, M, G, C, 0, 0; do 2 split=> //; rewrite !trmx0 !mulmx0 addr0; do 2 split=> //; first exact: psd0.
  by move=> o v Hc; rewrite H0 // !mul0mx addr0; split=> //; exact: H3.
case: s Ho triv => [D|lam D|i D|j D|i g|t] Ho triv.
- by apply: triv => o v _ /=; rewrite addr0.
- by apply: triv => o v _ /=; rewrite addr0.
- by apply: triv => o v _ /=; rewrite addr0.
- move: Ho triv; rewrite /=; case E: (nth_error _ j) => [[m H z Rm]|] Ho triv.
  + have [Hc [Hm pS]] := Ho; set P := e_P (tw_s w); set K := t_K H Rm P; set L1 := L 1%N m.
    exists m, (1%:M - K *m H), K, Rm, (- (L1 *m H)), L1; split=> //; split.
      have [_ [_ [-> _]]] := measure_do (H *m 0 + @no_noise R m) E.
      by rewrite t_correct_P -(joseph_K sP pS).
    split; last split.
    * rewrite linearN /= trmx_mul mulmxN !mulmxA -mulNmx -mulmxDl.
      have -> : - ((1%:M - K *m H) *m P *m H^T) + K *m Rm = K *m t_S H Rm P - P *m H^T by rewrite /t_S; mxzmod.
      by rewrite /K /t_K mulmxKV ?pd_unit // subrr mul0mx.
    * have -> : - (L1 *m H) *m P *m (- (L1 *m H))^T + L1 *m Rm *m L1^T = L1 *m t_S H Rm P *m L1^T.
        by rewrite /t_S linearN /= trmx_mul; mxzmod.
      exact/psd_congr/pd_psd.
    * move=> [w' xt] v [_ [_ [EP [_ FO]]]]; rewrite /snext /err /= in EP *; have := F2nth j FO; rewrite E.
      case E2: (nth_error _ j) => [k2|] // /obs_covE [z2 Ek]; rewrite {}Ek in E2 *; rewrite -/(trun _ _).
      have [_ [_ [-> _]]] := measure_do (H *m xt + v m) E2; rewrite /= -EP -/P -/K; split; first by mxzmod.
      by rewrite (nth_alter_same _ E2) /= conform_mx_id -/L1 add0r addr0; mxzmod.
  + apply: triv => -[w' xt] v [_ [_ [_ [_ FO]]]] /=; have := F2nth j FO; rewrite E.
    by case: (nth_error _ j).
- by apply: triv => o v _ /=; rewrite addr0.
- by apply: triv => o v _ /=; case: t Ho => //= *; rewrite addr0.
Qed.

Definition both (o : state) : 'cV[R]_(n + n) := col_mx (err o.1) o.2.
Definition jstep (L : weights R n) s (D : dist R state) : dist R state :=
  dbind D (fun o => dmap (fun v => (snext o.1 s v, o.2 + innovation_sum L o.1.1 (sdo o.1.1 o.1.2 s v).1)) (sdist s)).
Definition jinv w (D : dist R state) : Prop :=
  List.Forall (fun o => tw_cov w o.2.1.1) D /\ mass D = 1 /\ expect D both = 0 /\
  exists T, psd T /\ expect D (fun o => both o *m (both o)^T) = block_mx (e_P (tw_s w)) 0 0 T.

Lemma jstep_inv L w s D : jinv w D -> sop_ok w s -> jinv (rstep w s) (jstep L s D).
Proof.
move=> [F [T [m0 [C0 [pC0 c0]]]]] Ho.
have sP : sym (e_P (tw_s w)).
  have : sym (block_mx (e_P (tw_s w)) 0 0 C0).
    by rewrite /sym -c0 -expectT; apply: eq_expect => o; rewrite trmx_mul trmxK.
  by rewrite /sym tr_block_mx => /eq_block_mx [].
have [k [M [G [C [X [Y [Hc [EP [E0 [pT Ea]]]]]]]]]] := step_best L Ho sP.
have Ms := sop_mass Ho.
pose MM : 'M[R]_(n + n) := block_mx M 0 X 1%:M; pose GG : 'M[R]_(n + n, k) := col_mx G Y.
have Eb o v : tw_cov w o.1.1 -> both (snext o.1 s v, o.2 + innovation_sum L o.1.1 (sdo o.1.1 o.1.2 s v).1) = MM *m both o + GG *m v k.
  move=> H; have [E1 E2] := Ea o.1 v H.
  by rewrite /both /= E1 E2 mul_block_col mul_col_mx add_col_mx mul0mx mul1mx addr0 [in LHS]addrCA addrA.
split; [|split; [|split]].
- rewrite /jstep /dbind; elim: F => [|o l H _ IH] /=; first by constructor.
  apply/List.Forall_app; split=> //; apply: Forall_map'; rewrite /dmap; apply: Forall_map'.
  elim: (sdist s) => [|v l' IHv]; constructor=> //=.
  by apply: step_cov => //; apply: sop_ok_runs.
- by rewrite mass_bind ?T // => o; rewrite mass_map.
- rewrite expect_bind (@eq_expect_in _ _ _ _ _ _ (fun o => expect (sdist s) (fun v => MM *m both o + GG *m v k))); first exact: (affine_mean _ _ Hc m0).
  by apply: Forall_imp F => o H; rewrite expect_map; apply: eq_expect => v; rewrite Eb.
- exists (X *m e_P (tw_s w) *m X^T + Y *m C *m Y^T + C0); split; first exact: psdD.
  rewrite expect_bind (@eq_expect_in _ _ _ _ _ _ (fun o => expect (sdist s) (fun v => (MM *m both o + GG *m v k) *m (MM *m both o + GG *m v k)^T))).
    have EG : GG *m C *m GG^T = block_mx (G *m C *m G^T) (G *m C *m Y^T) (Y *m C *m G^T) (Y *m C *m Y^T).
      by rewrite /GG tr_col_mx mul_col_mx mul_col_row.
    rewrite (affine_cov _ _ Hc T m0 c0) EG /MM tr_block_mx !mulmx_block.
    rewrite !trmx0 trmx1 !(mulmx0, mul0mx, mulmx1, mul1mx, addr0, add0r) add_block_mx -/(rstep w s) EP E0.
    have -> : X *m e_P (tw_s w) *m M^T + Y *m C *m G^T = 0.
      have sC : C^T = C.
        by have [_ [_ <-]] := Hc; rewrite -expectT; apply: eq_expect => v; rewrite trmx_mul trmxK.
      by apply: trmx_inj; rewrite linearD /= !trmx_mul !trmxK sC sP !mulmxA E0 trmx0.
    by rewrite addrAC.
  by apply: Forall_imp F => o H; rewrite expect_map; apply: eq_expect => v; rewrite Eb.
Qed.

Lemma eq_dbind_in A B (D : dist R A) (F G : A -> dist R B) : List.Forall (fun a => F a.2 = G a.2) D -> dbind D F = dbind D G.
Proof. by rewrite /dbind; elim=> [|a l E _ IH] //=; rewrite E IH. Qed.
Lemma sdo_size w w' s x x' v v' : tw_cov w w' -> size (sdo w' x' s v').1 = size (sdo w x s v).1.
Proof.
move=> [_ [_ [_ [_ FO]]]]; case: s => //= j D; have := F2nth j FO.
by case: (nth_error _ j) => [k1|]; case: (nth_error _ j) => [k2|] //; case.
Qed.
Definition jsim (L : weights R n) ss (D : dist R state) : dist R state :=
  dbind D (fun o => dmap (fun r => ((trun o.1.1 r.1, r.2), o.2 + innovation_sum L o.1.1 r.1)) (sim o.1.1 o.1.2 ss)).
Lemma jsim_cons L w s ss D : List.Forall (fun o => tw_cov w o.2.1.1) D ->
  jsim L (s :: ss) D = jsim (fun k => L (size (sdo w 0 s (@no_noise R)).1 + k)%N) ss (jstep L s D).
Proof.
move=> F; rewrite /jsim /jstep dbind_assoc; apply: eq_dbind_in; apply: Forall_imp F => -[p [[w' xt] t]] /= H.
rewrite -/(sim w' xt (s :: ss)) sim_cons dmap_dbind /sim1 !dbind_dmap; apply: eq_dbind => v; rewrite dmap_dmap /=.
apply: eq_map => r /=; rewrite trun_cat innovation_sum_cat (sdo_size _ 0 xt (@no_noise R) v H) addrA.
by case: (sdo w' xt s v).
Qed.
Lemma jsim_inv L w ss D : jinv w D -> sops_ok w ss -> jinv (srun w ss) (jsim L ss D).
Proof.
elim: ss L w D => [|s ss IH] L w D HI /=.
  move=> _; rewrite /jsim /=.
  rewrite (@eq_dbind _ _ _ _ _ (fun o => [:: (1, o)])); last by move=> [[w' xt] t]; rewrite /dmap /= addr0.
  rewrite dbind_ret; suff -> : dmap (fun o : state => o) D = D by [].
  by rewrite /dmap -[RHS]map_id; apply: eq_map => -[].
move=> [Ho Hs]; rewrite (jsim_cons _ _ _ (proj1 HI)); apply: IH => //; exact: jstep_inv.
Qed.

Theorem sim_from_best (L : weights R n) w D0 ss : good_start w D0 -> sops_ok w ss ->
  let outs := sim_from w D0 ss in let e (r : seq (top R n) * 'cV[R]_n) := e_x (tw_s (trun w r.1)) - r.2 in
  let d (r : seq (top R n) * 'cV[R]_n) := innovation_sum L w r.1 in
  expect outs d = 0 /\ expect outs (fun r => e r *m (d r)^T) = 0 /\ psd (expect outs (fun r => d r *m (d r)^T)).
Proof.
move=> [T [m0 c0]] Hs outs e d.
pose D1 : dist R state := dmap (fun xt => ((w, xt), 0)) D0.
have I0 : jinv w D1.
  split; [|split; [|split]].
  - by apply: Forall_map'; elim: D0 {T m0 c0 outs D1} => [|x l IH]; constructor=> //=; apply: tw_cov_refl.
  - by rewrite mass_map.
  - rewrite expect_map /both /err /= (@eq_expect _ _ _ _ _ _ (fun a => col_mx 1%:M 0 *m (e_x (tw_s w) - a))).
      by rewrite expectM m0 mulmx0.
    by move=> a; rewrite mul_col_mx mul1mx mul0mx.
  - exists 0; split; first exact: psd0.
    rewrite expect_map /both /err /= (@eq_expect _ _ _ _ _ _ (fun a => col_mx 1%:M 0 *m ((e_x (tw_s w) - a) *m (e_x (tw_s w) - a)^T) *m (col_mx 1%:M 0)^T)).
      by rewrite expectMr expectM c0 tr_col_mx mul_col_mx mul_col_row trmx1 trmx0 mul1mx !mul0mx mulmx1 mulmx0.
    move=> a; rewrite mulmxA -[RHS]mulmxA -trmx_mul.
    by rewrite mul_col_mx mul1mx mul0mx.
have [_ [_ [m1 [C [pC c1]]]]] := jsim_inv L I0 Hs.
have EE k l (f : state -> 'M[R]_(k, l)) : expect (jsim L ss D1) f = expect outs (fun r => f ((trun w r.1, r.2), d r)).
  rewrite /jsim /D1 dbind_dmap expect_bind /outs /sim_from -/(dbind D0 (fun x => sim w x ss)) expect_bind.
  by apply: eq_expect => x; rewrite expect_map; apply: eq_expect => r; rewrite add0r.
move: m1 c1; rewrite !EE /both /err /= -/e -/d => m1 c1.
have Ed : forall r, d r = row_mx 0 1%:M *m col_mx (e r) (d r) by move=> r; rewrite mul_row_col mul0mx mul1mx add0r.
have Ee : forall r, e r = row_mx 1%:M 0 *m col_mx (e r) (d r) by move=> r; rewrite mul_row_col mul0mx mul1mx addr0.
split; last split.
- by rewrite (eq_expect _ Ed) expectM m1 mulmx0.
- rewrite (@eq_expect _ _ _ _ _ _ (fun r => row_mx 1%:M 0 *m (col_mx (e r) (d r) *m (col_mx (e r) (d r))^T) *m (row_mx 0 1%:M)^T)).
    by rewrite expectMr expectM c1 mul_row_block tr_row_mx mul_row_col trmx0 trmx1 !(mul1mx, mulmx1, mul0mx, mulmx0, addr0, add0r).
  by move=> r; rewrite mulmxA -[RHS]mulmxA -trmx_mul -Ee -Ed.
- rewrite (@eq_expect _ _ _ _ _ _ (fun r => row_mx 0 1%:M *m (col_mx (e r) (d r) *m (col_mx (e r) (d r))^T) *m (row_mx 0 1%:M)^T)).
    by rewrite expectMr expectM c1 mul_row_block tr_row_mx mul_row_col trmx0 trmx1 !(mul1mx, mulmx1, mul0mx, mulmx0, addr0, add0r).
  by move=> r; rewrite mulmxA -[RHS]mulmxA -trmx_mul -Ed.
Qed.
End BestMath.

(** ** the code *)
Section BestRun.
Variable R : rcfType.
Variables (c : cfg) (n : nat).
Local Notation N := (@exact_num R).
Local Notation abs := (world_abs n).
Local Notation den w os ts := (List.Forall2 (@denotes R c n w) os ts).
Local Notation wx w := (mx n 1 (kf_x (w_kf w))).
Local Notation wP w := (mx n n (kf_P (w_kf w))).
Theorem run_best (w : world R) (D0 : dist R 'cV[R]_n) (ss : seq (sop R n)) (prog : seq (top R n) -> seq (op R)) (L : weights R n) (b : 'cV[R]_n) :
  world_ok c n w -> good_start (abs w) D0 -> sops_ok (abs w) ss ->
  let outs := sim_from (abs w) D0 ss in
  List.Forall (fun o => den w (prog o.2.1) o.2.1) outs ->
  let x (o : seq (top R n) * 'cV[R]_n) := if run c N n w (prog o.1) is Ok w' then wx w' else 0 in
  let rival o := x o + b + innovation_sum L (abs w) o.1 in
  exists P : 'M[R]_n,
    List.Forall (fun o => exists w', run c N n w (prog o.2.1) = Ok w' /\ wP w' = P) outs /\
    expect outs (fun o => (x o - o.2) *m (x o - o.2)^T) = P /\
    expect outs (fun o => rival o - o.2) = b /\
    lemx (P + b *m b^T) (expect outs (fun o => (rival o - o.2) *m (rival o - o.2)^T)) /\
    lemx P (expect outs (fun o => (rival o - o.2) *m (rival o - o.2)^T)).
Proof.
move=> W G S outs Hd x rival; have [P [F [T [m0 c0]]]] := run_true_cov W G S Hd; exists P.
rewrite -/outs in F T m0 c0 *; have [d0 [ed dd]] := sim_from_best L G S; rewrite -/outs in d0 ed dd.
have Ed : forall o, List.In o outs -> x o.2 - o.2.2 = e_x (tw_s (trun (abs w) o.2.1)) - o.2.2.
  have [Fo _] := sim_from_cov G S; move=> o Ho; congr (_ - _).
  have [H1 _] := proj1 (List.Forall_forall _ _) Fo _ Ho; have D := proj1 (List.Forall_forall _ _) Hd _ Ho.
  by have [w' [E [_ [_ [_ A]]]]] := run_refines W D H1; rewrite /x E -A.
pose e (o : seq (top R n) * 'cV[R]_n) := x o - o.2; pose d (o : seq (top R n) * 'cV[R]_n) := innovation_sum L (abs w) o.1.
have ed' : expect outs (fun r => e r *m (d r)^T) = 0.
  by rewrite -[RHS]ed; apply: eq_expect_in; apply/List.Forall_forall => o Ho; rewrite /e Ed.
have ET (p q : 'cV[R]_n) : (p + q)^T = p^T + q^T by rewrite linearD.
have Er o : rival o - o.2 = e o + d o + b by rewrite /rival /e /d; mxzmod.
have Ec : expect outs (fun o => (rival o - o.2) *m (rival o - o.2)^T) = P + b *m b^T + expect outs (fun r => d r *m (d r)^T).
  rewrite (@eq_expect _ _ _ _ _ _ (fun o => (e o *m (e o)^T + e o *m (d o)^T) + ((e o *m (d o)^T)^T + d o *m (d o)^T)
     + ((e o + d o) *m b^T + (b *m (e o + d o)^T + b *m b^T)))).
    have s0 : expect outs (fun o => e o + d o) = 0 by rewrite expectD m0 d0 addr0.
    rewrite expectD expectD expectD expectD ed' expectT ed' trmx0 addr0 add0r c0 expectD.
    rewrite expectMr s0 expectD expectM expectT s0 trmx0 mul0mx mulmx0 !add0r expectC T scale1r addrAC //.
  by move=> o; rewrite Er trmx_mul trmxK !ET; mxzmod.
split=> //; split=> //; split.
  rewrite (eq_expect _ Er) expectD expectD m0 d0 expectC T scale1r !add0r //.
split; first by rewrite Ec /lemx addrC addKr.
rewrite Ec /lemx -[P + _ + _]addrA [X in psd X]addrC addKr; apply: psdD => //; exact: psd_gram.
Qed.
End BestRun.

Lemma best_example : forall (R : rcfType) (g : est R 2 -> noise R),
  exists (w : world R) (prog : seq (top R 2) -> seq (op R)), world_ok cfg64 2 w /\ good_start (world_abs 2 w) (x_D0 R) /\
  sops_ok (world_abs 2 w) (rcons (x_sim1 g) (SMeasure 0 (x_D R)) ++ rcons (x_sim2 R) (SMeasure 1 (x_D R))) /\
  forall ts, List.Forall2 (@denotes R cfg64 2 w) (prog ts) ts.
Proof. by move=> R g; have [w [prog [H1 [H2 [H3 [_ [_ [_ H4]]]]]]]] := prob_example g; exists w, prog. Qed.
