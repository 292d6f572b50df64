(** * The reported covariance is the mean square error: consequences for programs *)
From Verif Require Import Spec Matrix Filter Extended SpecFilter History SpecGen SpecExact SpecHistory SpecWorld SpecProb Zmod Psd KMath HistGen FilterExact HistExact WorldMath ProbMath.
From Verif Require Import ExampleData Represent ExactExamples.
From mathcomp Require Import all_ssreflect all_algebra.
Set Implicit Arguments.
Unset Strict Implicit.
Unset Printing Implicit Defensive.
Import Order.TTheory GRing.Theory Num.Theory.
Local Open Scope ring_scope.

Section ProbMain.
Variable R : rcfType.
Variables (c : cfg) (n : nat).
Local Notation N := (@exact_num R).
Local Notation abs := (world_abs n).
Local Notation den w os ts := (List.Forall2 (@denotes R c n w) os ts).
Local Notation wx w := (mx n 1 (kf_x (w_kf w))).
Local Notation wP w := (mx n n (kf_P (w_kf w))).

Theorem run_true_cov (w : world R) (D0 : dist R 'cV[R]_n) (ss : seq (sop R n)) (prog : seq (top R n) -> seq (op R)) :
  world_ok c n w -> good_start (abs w) D0 -> sops_ok (abs w) ss ->
  let outs := sim_from (abs w) D0 ss in
  List.Forall (fun o => den w (prog o.2.1) o.2.1) outs ->
  let err (o : seq (top R n) * 'cV[R]_n) := (if run c N n w (prog o.1) is Ok w' then wx w' else 0) - o.2 in
  exists P : 'M[R]_n,
    List.Forall (fun o => exists w', run c N n w (prog o.2.1) = Ok w' /\ wP w' = P) outs /\
    mass outs = 1 /\ expect outs err = 0 /\ expect outs (fun o => err o *m (err o)^T) = P.
Proof.
move=> W G S outs Hd er; have := sim_from_cov G S; rewrite -/outs /= => -[F [T [m0 c0]]].
exists (e_P (tw_s (srun (abs w) ss))).
have F' : List.Forall (fun o => (exists w', run c N n w (prog o.2.1) = Ok w' /\ wP w' = e_P (tw_s (srun (abs w) ss))) /\
    er o.2 = e_x (tw_s (trun (abs w) o.2.1)) - o.2.2) outs.
  elim: F Hd => [|o l [H1 H2] _ IH] Hd; first by constructor.
  have [D Hd'] : den w (prog o.2.1) o.2.1 /\ List.Forall (fun o => den w (prog o.2.1) o.2.1) l by inversion Hd.
  constructor; last exact: IH.
  have [w' [E [_ [_ [_ A]]]]] := run_refines W D H1; rewrite /er E -A; split=> //.
  by exists w'; split=> //; rewrite -H2 -A.
split; first by apply: Forall_imp F' => o [].
split=> //; split.
  by rewrite -m0; apply: eq_expect_in; apply: Forall_imp F' => o [_ ->].
by rewrite -c0; apply: eq_expect_in; apply: Forall_imp F' => o [_ ->].
Qed.

(** ** innovations *)
Lemma Forall2_app_r A B (P : A -> B -> Prop) l l1 l2 : List.Forall2 P l (l1 ++ l2) ->
  exists k1 k2, l = k1 ++ k2 /\ List.Forall2 P k1 l1 /\ List.Forall2 P k2 l2.
Proof.
elim: l1 l => [|b l1 IH] l H /=; first by exists [::], l.
case: l H => [|a l] H; first by inversion H.
have [H1 H2] : P a b /\ List.Forall2 P l (l1 ++ l2) by inversion H.
by have [k1 [k2 [-> [H3 H4]]]] := IH _ H2; exists (a :: k1), k2; do 2 split=> //; constructor.
Qed.
Lemma run_app (w : world R) os1 os2 : run c N n w (os1 ++ os2) = bind (run c N n w os1) (fun w' => run c N n w' os2).
Proof. by elim: os1 w => [|o os IH] w //=; case: (step _ _ _ _ _) => [w'|k] //=. Qed.

Lemma den_dims (w w1 : world R) os (ts : seq (top R n)) : ct_dims w1 = ct_dims w -> ob_dims w1 = ob_dims w -> den w os ts -> den w1 os ts.
Proof. by move=> E1 E2; elim=> [|a b l l' Ha _ IHl]; constructor=> //; apply: denotes_dims Ha. Qed.
Lemma Some_eq A (a b : A) : Some a = Some b -> a = b.
Proof. by case. Qed.
Lemma nth_upd_same' A (l : seq A) i v v' : nth_error l i = Some v -> nth_error (upd l i v') i = Some v'.
Proof. by elim: l i => [|a l IH] [|i] //=; apply: IH. Qed.

Lemma innovation_value (w : world R) os ts j m (H : 'M[R]_(m, n)) z z' Rm : world_ok c n w ->
  nth_error (tw_ob (trun (abs w) ts)) j = Some (TObs H z Rm) ->
  let ts' := ts ++ [:: TSetZ j (fun m' => conform_mx 0 z'); TCorrect j] in
  den w os ts' -> ops_ok (abs w) ts' ->
  exists w' b, run c N n w os = Ok w' /\ nth_error (w_ob w') j = Some (m, b) /\
    mx m 1 (ob_y b) = z' - H *m e_x (tw_s (trun (abs w) ts)).
Proof.
move=> W E ts' D O.
have [os1 [os2 [-> [D1 D2]]]] := Forall2_app_r D.
have [O1 O2] : ops_ok (abs w) ts /\ ops_ok (trun (abs w) ts) [:: TSetZ j (fun m' => conform_mx 0 z'); TCorrect j].
  by rewrite /ts' in O; clear -O; elim: ts (abs w) O => [|t ts IH] v //= [H1 H2]; have [] := IH _ H2.
have [w1 [E1 [W1 [C1 [B1 A1]]]]] := run_refines W D1 O1.
have D2' : den w1 os2 [:: TSetZ j (fun m' => conform_mx 0 z'); TCorrect j].
  exact: den_dims D2.
have : exists o1 o2, os2 = [:: o1; o2] /\ @denotes R c n w1 o1 (TSetZ j (fun m' => conform_mx 0 z')) /\ @denotes R c n w1 o2 (@TCorrect R n j).
  clear -D2'; inversion D2' as [|o1 t1 l1 l2 X1 X2]; subst; inversion X2 as [|o2 t2 l3 l4 X3 X4]; subst; inversion X4; subst.
  by exists o1, o2.
move=> [o1 [o2 [Eos [d1 d2]]]].
rewrite run_app E1 {}Eos /=.
rewrite -A1 in O2; have [_ [Oc _]] := O2.
have Ozk : op_ok (abs w1) (TSetZ j (fun m' => conform_mx 0 z')) by [].
have [w2 [E2 [W2 [C2 [B2 A2]]]]] := step_refines W1 d1 Ozk; rewrite E2 /=.
have d2' := denotes_dims C2 B2 d2.
rewrite -A2 in Oc.
case: o2 d2 d2' => // j' _ /= Ej; rewrite {}Ej {j'} /=.
have Eo : nth_error (tw_ob (abs w2)) j = Some (TObs H z' Rm).
  rewrite A2 /= -[List.map _ _]/(tw_ob (abs w1)) A1 (nth_alter_same _ E) /=; by rewrite conform_mx_id.
move: Eo; rewrite /= nth_map_abs; case Eb: (nth_error (w_ob w2) j) => [[m2 b2]|] // Eo'; have Eo := Some_eq Eo'; clear Eo'.
have Em : m2 = m by have := f_equal (@obs_dim R n) Eo.
subst m2.
have [/ssrnat.leP Hn [[Vf [_ Vo]] _]] := W2.
have Vb := Forall_nth _ _ _ _ Vo Eb.
move: Oc; rewrite /= nth_map_abs Eb => -[Hm pS].
have [b3 [f3 [-> [_ [_ [_ [_ [_ [_ [Ey _]]]]]]]]]] := correct_exact Hn Hm Vb Vf pS.
exists (set_ob (set_kf w2 f3) j (m, b3)), b3; split=> //; split; first exact: nth_upd_same' Eb.
have Ex : wx w2 = e_x (tw_s (trun (abs w) ts)) by rewrite -A1 -[wx w2]/(e_x (tw_s (abs w2))) A2.
rewrite Ey -Ex.
pose F (o : tobs R n) : 'cV[R]_m := let: TObs m' H z Rm := o in conform_mx 0 (z - H *m wx w2).
by have := f_equal F Eo; rewrite /F /= !conform_mx_id.
Qed.


Local Notation e w := (fun r : seq (top R n) * 'cV[R]_n => e_x (tw_s (trun (abs w) r.1)) - r.2).
Definition read_y (w : world R) (prog : seq (top R n) -> seq (op R)) j m (ts : seq (top R n)) : 'cV[R]_m :=
  if run c N n w (prog ts) is Ok w' then (if nth_error (w_ob w') j is Some (_, b) then mx m 1 (ob_y b) else 0) else 0.

(** the last call of a simulation is a measurement: what is read afterwards *)
Lemma meas_expect (w : world R) wr (r : seq (top R n) * 'cV[R]_n) j D m (H : 'M[R]_(m, n)) z Rm prog k l (f : 'cV[R]_m -> 'cV[R]_n -> 'M[R]_(k, l)) :
  world_ok c n w -> nth_error (tw_ob wr) j = Some (TObs H z Rm) -> tw_cov wr (trun (abs w) r.1) ->
  let outs := dmap (pre r) (sim1 (trun (abs w) r.1) r.2 (SMeasure j D)) in
  List.Forall (fun o => ops_ok (abs w) o.2.1) outs -> List.Forall (fun o => den w (prog o.2.1) o.2.1) outs ->
  let K := t_K H Rm (e_P (tw_s wr)) in
  expect outs (fun o => f (read_y w prog j m o.1) (e w o)) =
  expect D (fun v => f (- H *m e w r + 1%:M *m v m) ((1%:M - K *m H) *m e w r + K *m v m)).
Proof.
move=> W Es Hc outs X1 Y1 K; rewrite /outs expect_map expect_map /=; apply: eq_expect_in.
have [_ [_ [EP [_ FO]]]] := Hc; have := F2nth j FO; rewrite Es; case E2: (nth_error (tw_ob (trun _ _)) j) => [k2|] // /obs_covE [z2 Ek].
rewrite Ek in E2.
move: X1 Y1; rewrite /outs /sim1 /dmap -map_comp /= {outs}.
elim: D => [|v D IH] X1 Y1; first by constructor.
inversion X1 as [|? ? O1 X2]; inversion Y1 as [|? ? D1 Y2]; subst; constructor; last exact: IH.
rewrite /pre /= E2 /= in O1 D1 *.
have [w' [b [E [Eb Ey]]]] := innovation_value W E2 D1 O1.
rewrite /read_y /= E Eb Ey; congr f; first by rewrite mul1mx mulNmx; mxzmod.
rewrite trun_cat; have [_ [_ [-> _]]] := measure_do (H *m r.2 + v.2 m) E2; rewrite /= -EP -/K.
by mxzmod.
Qed.

Lemma sops_ok_cat w ss1 ss2 : @sops_ok R n w (ss1 ++ ss2) <-> sops_ok w ss1 /\ sops_ok (srun w ss1) ss2.
Proof.
by elim: ss1 w => [|s ss IH] w /=; [split=> [|[]]|rewrite IH; split=> [[? [? ?]]|[[? ?] ?]]].
Qed.
Lemma srun_cat w ss1 ss2 : @srun R n w (ss1 ++ ss2) = srun (srun w ss1) ss2.
Proof. by elim: ss1 w => [|s ss IH] w /=. Qed.
Lemma sim_from_rcons (w : tworld R n) D0 ss s : sim_from w D0 (rcons ss s) = dbind (sim_from w D0 ss) (fun r => dmap (pre r) (sim1 (trun w r.1) r.2 s)).
Proof.
rewrite -[sim_from w D0 ss]/(dbind D0 (fun x => sim w x ss)) dbind_assoc.
by rewrite -[LHS]/(dbind D0 (fun x => sim w x (rcons ss s))); apply: eq_dbind => x; exact: sim_rcons.
Qed.
Lemma sim_from_tw (w : tworld R n) D0 ss : sops_ok w ss -> List.Forall (fun o => tw_cov (srun w ss) (@trun R n w o.2.1)) (sim_from w D0 ss).
Proof. by move=> S1; apply: Forall_flat => x; apply: Forall_map'; apply: Forall_imp (sim_ok x.2 (tw_cov_refl _) (sops_ok_runs S1)) => r [_]. Qed.

(** what the last measurement of a simulation gives, on average *)
Lemma from_expect (w : world R) D0 ss j D m (H : 'M[R]_(m, n)) z Rm prog k l (f : 'cV[R]_m -> 'cV[R]_n -> 'M[R]_(k, l)) :
  world_ok c n w -> good_start (abs w) D0 -> sops_ok (abs w) (rcons ss (SMeasure j D)) ->
  nth_error (tw_ob (srun (abs w) ss)) j = Some (TObs H z Rm) ->
  let outs := sim_from (abs w) D0 (rcons ss (SMeasure j D)) in
  List.Forall (fun o => den w (prog o.2.1) o.2.1) outs ->
  let K := t_K H Rm (e_P (tw_s (srun (abs w) ss))) in
  expect outs (fun o => f (read_y w prog j m o.1) (e w o)) =
  expect (sim_from (abs w) D0 ss) (fun r => expect D (fun v => f (- H *m e w r + 1%:M *m v m) ((1%:M - K *m H) *m e w r + K *m v m))).
Proof.
move=> W G S Es outs Hd K.
have [F0 _] := sim_from_cov G S.
have [S1 S2] : sops_ok (abs w) ss /\ sops_ok (srun (abs w) ss) [:: SMeasure j D] by apply/sops_ok_cat; rewrite cats1.
have Fc := sim_from_tw D0 S1.
rewrite /outs sim_from_rcons in Hd *; rewrite sim_from_rcons in F0.
have F0' := Forall_imp (fun o (h : _ /\ _) => proj1 h) F0; have H1 := Forall_dbind (P := fun o => ops_ok (abs w) o.1) F0'.
have H2 := Forall_dbind (P := fun o => den w (prog o.1) o.1) Hd.
rewrite expect_bind; apply: eq_expect_in.
elim: Fc H1 H2 => [|r l' Hc _ IH] H1 H2; first by constructor.
inversion H1 as [|? ? X1 X2]; inversion H2 as [|? ? Y1 Y2]; subst; constructor; last exact: IH.
exact: (meas_expect f W Es Hc X1 Y1).
Qed.

Theorem run_innovation (w : world R) (D0 : dist R 'cV[R]_n) (ss : seq (sop R n)) j D m (H : 'M[R]_(m, n)) z Rm (prog : seq (top R n) -> seq (op R)) :
  world_ok c n w -> good_start (abs w) D0 -> sops_ok (abs w) (rcons ss (SMeasure j D)) ->
  nth_error (tw_ob (srun (abs w) ss)) j = Some (TObs H z Rm) ->
  let outs := sim_from (abs w) D0 (rcons ss (SMeasure j D)) in
  List.Forall (fun o => den w (prog o.2.1) o.2.1) outs ->
  let y (o : seq (top R n) * 'cV[R]_n) : 'cV[R]_m :=
    if run c N n w (prog o.1) is Ok w' then (if nth_error (w_ob w') j is Some (_, b) then mx m 1 (ob_y b) else 0) else 0 in
  List.Forall (fun o => exists w', run c N n w (prog o.2.1) = Ok w') outs /\
  expect outs y = 0 /\ expect outs (fun o => y o *m (y o)^T) = t_S H Rm (e_P (tw_s (srun (abs w) ss))).
Proof.
move=> W G S Es outs Hd y.
have [S1 S2] : sops_ok (abs w) ss /\ sops_ok (srun (abs w) ss) [:: SMeasure j D] by apply/sops_ok_cat; rewrite cats1.
have := sim_from_cov G S; rewrite -/outs /= => -[F0 _].
split.
  elim: F0 Hd => [|o l [H1 _] _ IH] Hd; first by constructor.
  have [Do Hd'] : den w (prog o.2.1) o.2.1 /\ List.Forall (fun o => den w (prog o.2.1) o.2.1) l by inversion Hd.
  constructor; last exact: IH.
  by have [w' [E _]] := run_refines W Do H1; exists w'.
have [Ho _] : centred D Rm /\ S_ok (e_P (tw_s (srun (abs w) ss))) (TObs H z Rm) by case: S2 => + _; rewrite /= Es.
have [F1 [T1 [m1 c1]]] := sim_from_cov G S1.
have EE k l f := @from_expect w D0 ss j D m H z Rm prog k l f W G S Es Hd.
split.
  rewrite -[LHS]/(expect outs (fun o => read_y w prog j m o.1)) (EE _ _ (fun y _ => y)); exact: (affine_mean _ _ Ho m1).
rewrite -[LHS]/(expect outs (fun o => read_y w prog j m o.1 *m (read_y w prog j m o.1)^T)).
rewrite (EE _ _ (fun u _ => u *m u^T)) (affine_cov _ _ Ho T1 m1 c1) linearN /= mulNmx mulmxN mulNmx opprK trmx1 mulmx1 mul1mx.
by [].
Qed.

(** ** innovations of different measurements are uncorrelated *)
Lemma affine_cross A p1 p2 k (V0 : dist R A) (V : dist R (noise R)) (er : A -> 'cV[R]_n) (M1 : 'M[R]_(p1, n)) (G1 : 'M[R]_(p1, k)) (M2 : 'M[R]_(p2, n)) (G2 : 'M[R]_(p2, k)) C P :
  centred V C -> mass V0 = 1 -> expect V0 er = 0 -> expect V0 (fun a => er a *m (er a)^T) = P ->
  expect V0 (fun a => expect V (fun v => (M1 *m er a + G1 *m v k) *m (M2 *m er a + G2 *m v k)^T)) = M1 *m P *m M2^T + G1 *m C *m G2^T.
Proof.
move=> [Tv [mv cv]] T m0 c0.
have E a : expect V (fun v => (M1 *m er a + G1 *m v k) *m (M2 *m er a + G2 *m v k)^T) = M1 *m (er a *m (er a)^T) *m M2^T + G1 *m C *m G2^T.
  rewrite (@eq_expect _ _ _ _ _ _ (fun v => (M1 *m (er a *m (er a)^T) *m M2^T) + (M1 *m er a *m ((v k)^T *m G2^T) + (G1 *m (v k *m ((er a)^T *m M2^T)) + G1 *m (v k *m (v k)^T) *m G2^T)))).
    rewrite !expectD expectC Tv scale1r expectM expectMr expectT mv trmx0 mul0mx mulmx0 add0r.
    by rewrite expectM expectMr mv mul0mx mulmx0 add0r expectMr expectM cv.
  by move=> v; rewrite linearD /= !trmx_mul mulmxDl !mulmxDr -!mulmxA -!addrA.
rewrite (eq_expect _ E) expectD expectC T scale1r; congr (_ + _).
by rewrite expectMr expectM c0.
Qed.

Lemma sym_cent k (D : dist R (noise R)) (C : 'M[R]_k) : centred D C -> sym C.
Proof. by move=> [_ [_ <-]]; rewrite /sym -expectT; apply: eq_expect => o; rewrite trmx_mul trmxK. Qed.
Lemma sym_step w s : sop_ok w s -> sym (e_P (tw_s w)) -> @sym R n (e_P (tw_s (rstep w s))).
Proof.
move=> Ho sP; have [k [M [G [C [Hc [EP _]]]]]] := step_affine Ho sP.
by rewrite /rstep -EP /sym linearD /= !trmx_mul !trmxK sP (sym_cent Hc) !mulmxA.
Qed.
Lemma sym_run w ss : sops_ok w ss -> sym (e_P (tw_s w)) -> @sym R n (e_P (tw_s (srun w ss))).
Proof. by elim: ss w => [|s ss IH] w //= [Ho Hs] sP; apply: IH => //; apply: sym_step. Qed.

(** the mean error after a simulation is a fixed linear function of the error before it *)
Lemma sim_mean wr ss : sops_ok wr ss -> sym (e_P (tw_s wr)) ->
  exists M : 'M[R]_n, forall w xt, tw_cov wr w ->
    expect (sim w xt ss) (fun r => e_x (tw_s (trun w r.1)) - r.2) = M *m (e_x (tw_s w) - xt).
Proof.
elim: ss wr => [|s ss IH] wr /= Hs sP.
  by exists 1%:M => w xt _; rewrite /expect big_cons big_nil addr0 scale1r mul1mx.
case: Hs => Ho Hs; have [M2 H2] := IH _ Hs (sym_step Ho sP).
have [k [M [G [C [Hc [_ Ea]]]]]] := step_affine Ho sP.
exists (M2 *m M) => w xt Hw.
rewrite -[flatten _]/(sim w xt (s :: ss)) sim_cons expect_bind /sim1 expect_map.
rewrite (@eq_expect _ _ _ _ _ _ (fun v => M2 *m (M *m (e_x (tw_s w) - xt) + G *m v k))).
  by rewrite expectM expectD expectC expectM; case: Hc => -> [-> _]; rewrite mulmx0 addr0 scale1r mulmxA.
move=> v; rewrite expect_map /pre /=.
rewrite (@eq_expect _ _ _ _ _ _ (fun r => e_x (tw_s (trun (trun w (sdo w xt s v).1) r.1)) - r.2)); last by move=> r; rewrite trun_cat.
rewrite H2; last by apply: step_cov => //; apply: sop_ok_runs.
by congr (_ *m _); exact: (Ea (w, xt) v Hw).
Qed.

Lemma sim_twoE (w : tworld R n) D0 ss1 ss2 :
  sim_two w D0 ss1 ss2 = dbind (sim_from w D0 ss1) (fun r => dmap (pair r) (sim (trun w r.1) r.2 ss2)).
Proof. by rewrite /sim_two /dbind; congr flatten; apply: eq_map => r; rewrite /dmap -map_comp. Qed.

Theorem run_white (w : world R) (D0 : dist R 'cV[R]_n) (ss1 ss2 : seq (sop R n)) j1 D1 m1 (H1 : 'M[R]_(m1, n)) z1 R1 j2 D2 m2 (H2 : 'M[R]_(m2, n)) z2 R2
    (prog : seq (top R n) -> seq (op R)) :
  world_ok c n w -> good_start (abs w) D0 ->
  sops_ok (abs w) (rcons ss1 (SMeasure j1 D1) ++ rcons ss2 (SMeasure j2 D2)) ->
  nth_error (tw_ob (srun (abs w) ss1)) j1 = Some (TObs H1 z1 R1) ->
  nth_error (tw_ob (srun (abs w) (rcons ss1 (SMeasure j1 D1) ++ ss2))) j2 = Some (TObs H2 z2 R2) ->
  let both := sim_two (abs w) D0 (rcons ss1 (SMeasure j1 D1)) (rcons ss2 (SMeasure j2 D2)) in
  List.Forall (fun o => den w (prog o.2.1) o.2.1) (sim_from (abs w) D0 (rcons ss1 (SMeasure j1 D1))) ->
  List.Forall (fun o => den w (prog (o.2.1.1 ++ o.2.2.1)) (o.2.1.1 ++ o.2.2.1)) both ->
  expect both (fun o => read_y w prog j2 m2 (o.1.1 ++ o.2.1) *m (read_y w prog j1 m1 o.1.1)^T) = 0.
Proof.
move=> W G /sops_ok_cat [S1 S2] Es1 Es2 both Hd1 Hd2.
have [S1a S1b] : sops_ok (abs w) ss1 /\ sops_ok (srun (abs w) ss1) [:: SMeasure j1 D1] by apply/sops_ok_cat; rewrite cats1.
have [S2a S2b] : sops_ok (srun (abs w) (rcons ss1 (SMeasure j1 D1))) ss2 /\ sops_ok (srun (srun (abs w) (rcons ss1 (SMeasure j1 D1))) ss2) [:: SMeasure j2 D2].
  by apply/sops_ok_cat; rewrite cats1.
rewrite srun_cat in Es2; set wm := srun (abs w) (rcons ss1 (SMeasure j1 D1)) in S2 S2a S2b Es2.
have [F1 [T1 [mn1 c1]]] := sim_from_cov G S1a.
have [F2 [T2 [mn2 c2]]] := sim_from_cov G S1; rewrite -/wm in c2.
have sP : sym (e_P (tw_s (srun (abs w) ss1))).
  by rewrite /sym -c1 -expectT; apply: eq_expect => o; rewrite trmx_mul trmxK.
have sPm : sym (e_P (tw_s wm)).
  by rewrite /sym -c2 -expectT; apply: eq_expect => o; rewrite trmx_mul trmxK.
have [M HM] := sim_mean S2a sPm.
have [Ho1 [Hm1 pS]] : centred D1 R1 /\ S_ok (e_P (tw_s (srun (abs w) ss1))) (TObs H1 z1 R1) by case: S1b => + _; rewrite /= Es1.
have [Ho2 _] : centred D2 R2 /\ S_ok (e_P (tw_s (srun wm ss2))) (TObs H2 z2 R2) by case: S2b => + _; rewrite /= Es2.
(* the second innovation, given the first part *)
have Fc := sim_from_tw D0 S1; rewrite -/wm in Fc.
rewrite /both sim_twoE in Hd2 *.
have Hd2' := Forall_dbind (P := fun o => den w (prog (o.1.1 ++ o.2.1)) (o.1.1 ++ o.2.1)) Hd2.
rewrite expect_bind.
rewrite (@eq_expect_in _ _ _ _ _ _ (fun r => (- H2 *m M) *m (e w r *m (read_y w prog j1 m1 r.1)^T))).
  rewrite expectM (from_expect (fun y er => er *m y^T) W G S1 Es1 Hd1) (affine_cross _ _ _ _ Ho1 T1 mn1 c1).
  set P := e_P (tw_s (srun (abs w) ss1)); set K := t_K H1 R1 P.
  suff -> : (1%:M - K *m H1) *m P *m (- H1)^T + K *m R1 *m 1%:M^T = 0 by rewrite mulmx0.
  rewrite linearN /= trmx1 mulmx1 mulmxN mulmxBl mul1mx mulmxBl opprB.
  have <- : K *m t_S H1 R1 P = P *m H1^T by rewrite /K /t_K mulmxKV // pd_unit.
  rewrite /t_S mulmxDr !mulmxA; mxzmod.
have := Forall_imp (fun o (h : _ /\ _) => proj1 h) F2.
elim: Fc Hd2' => [|r l Hc _ IH] Hd2' Fo; first by constructor.
inversion Hd2' as [|? ? X1 X2]; inversion Fo as [|? ? Y1 Y2]; subst; constructor; last exact: IH.
have Y3 := sim_ok r.2.2 Hc (sops_ok_runs S2); have Y4 := sim_ok r.2.2 Hc (sops_ok_runs S2a).
case: r Hc X1 Y1 Y3 Y4 {Hd2' Fo} => p [ts xt] /= Hc X1 Y1 Y3 Y4.
transitivity (expect (sim (trun (abs w) ts) xt (rcons ss2 (SMeasure j2 D2))) (fun o => read_y w prog j2 m2 (ts ++ o.1)) *m (read_y w prog j1 m1 ts)^T).
  by rewrite expect_map -expectMr.
rewrite mulmxA; congr (_ *m _).
have Z1 : List.Forall (fun o => ops_ok (abs w) (ts ++ o.2.1)) (sim (trun (abs w) ts) xt (rcons ss2 (SMeasure j2 D2))).
  by apply: Forall_imp Y3 => o [H _]; apply: ops_ok_cat.
have Z2 : List.Forall (fun o => den w (prog (ts ++ o.2.1)) (ts ++ o.2.1)) (sim (trun (abs w) ts) xt (rcons ss2 (SMeasure j2 D2))).
  by clear -X1; rewrite /dmap in X1; elim: (sim _ _ _) X1 => [|o l IHl] /= X1; constructor; try apply: IHl; inversion X1.
rewrite sim_rcons in Z1 Z2 *.
have Z1' := Forall_dbind (P := fun o => ops_ok (abs w) (ts ++ o.1)) Z1.
have Z2' := Forall_dbind (P := fun o => den w (prog (ts ++ o.1)) (ts ++ o.1)) Z2.
rewrite -mulmxA -(HM _ _ Hc) -expectM expect_bind; apply: eq_expect_in.
elim: Y4 Z1' Z2' {Z1 Z2 Y3 X1 IH} => [|q l' [_ Hq] _ IHq] Z1 Z2; first by constructor.
inversion Z1 as [|? ? A1 A2]; inversion Z2 as [|? ? B1 B2]; subst; constructor; last exact: IHq.
rewrite -trun_cat in Hq.
have shift (P : seq (top R n) -> Prop) : List.Forall (fun o => P (ts ++ o.2.1)) (dmap (pre q.2) (sim1 (trun (trun (abs w) ts) q.2.1) q.2.2 (SMeasure j2 D2))) ->
    List.Forall (fun o => P o.2.1) (dmap (pre (ts ++ q.2.1, q.2.2)) (sim1 (trun (abs w) (ts ++ q.2.1)) q.2.2 (SMeasure j2 D2))).
  rewrite trun_cat /dmap; elim: (sim1 _ _ _) => [|o l1 IHl] //= X; constructor; last by apply: IHl; inversion X.
  by inversion X; rewrite /pre /= -catA.
have ME := @meas_expect w (srun wm ss2) (ts ++ q.2.1, q.2.2) j2 D2 m2 H2 z2 R2 prog m2 1 (fun y _ => y) W Es2 Hq (shift _ A1) (shift (fun t => den w (prog t) t) B1).
move: ME; rewrite /= expect_map [in RHS]/expect => ME.
rewrite expect_map; move: ME; rewrite trun_cat => ME.
transitivity (expect (sim1 (trun (trun (abs w) ts) q.2.1) q.2.2 (SMeasure j2 D2)) (fun a => read_y w prog j2 m2 (pre (ts ++ q.2.1, q.2.2) a).1)).
  by apply: eq_expect => o; rewrite /pre /= catA.
rewrite ME -[LHS]/(expect D2 (fun v => - H2 *m (e_x (tw_s (trun (trun (abs w) ts) q.2.1)) - q.2.2) + 1%:M *m v m2)).
by rewrite expectD expectC expectM; case: Ho2 => -> [-> _]; rewrite mulmx0 addr0 scale1r.
Qed.

End ProbMain.
