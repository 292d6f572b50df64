(** * Noise no larger than declared: proofs (C89, C90) *)
From Coq Require Import ZArith Lia.
From Verif Require Import Spec Matrix Filter Extended SpecFilter History SpecGen SpecExact SpecHistory SpecWorld SpecProb SpecRobust Zmod Psd KMath HistGen FilterExact HistExact WorldMath ProbMath ProbMain ExactMain Represent.
From mathcomp Require Import all_ssreflect all_algebra.
Set Implicit Arguments.
Unset Strict Implicit.
Unset Printing Implicit Defensive.
Import Order.TTheory GRing.Theory Num.Theory.
Local Open Scope ring_scope.

Section Robust.
Variable R : rcfType.
Section World.
Variable n : nat.
Implicit Types (w : tworld R n) (s : sop R n).

Lemma safe_runs w s : psd (e_P (tw_s w)) -> sop_safe w s -> sop_runs w s.
Proof.
move=> pP; case: s => [D|lam D|i D|j D|i g|t]; rewrite /sop_runs /=.
- by case=> _ [T _]; split.
- by case=> l0 [_ [_ [T _]]]; split.
- by case: (nth_error _ i) => [[m B u Qc]|]; [case=> _ [T _]|]; split.
- case: (nth_error _ j) => [[m H z Rm]|]; last by split.
  by case=> m0 [pR [T _]]; do 2 split=> //; apply: S_pd.
- by split=> //; apply: mass1.
- by case: t => //=; split=> //; apply: mass1.
Qed.

Lemma centred_at (m : nat) D (C : 'M[R]_m) : at_most D C -> centred D (expect D (fun v => v m *m (v m)^T)).
Proof. by case=> T [m0 _]; split=> //; split. Qed.

Lemma step_safe w s : sop_safe w s -> psd (e_P (tw_s w)) ->
  psd (e_P (tw_s (rstep w s))) /\
  exists k (M : 'M[R]_n) (G : 'M[R]_(n, k)) (C : 'M[R]_k), centred (sdist s) C /\
    (forall Sg, lemx Sg (e_P (tw_s w)) -> lemx (M *m Sg *m M^T + G *m C *m G^T) (e_P (tw_s (rstep w s)))) /\
    forall o v, tw_cov w o.1 -> err (snext o s v) = M *m err o + G *m v k.
Proof.
move=> Ho pP.
have triv (D : dist R (noise R)) : mass D = 1 -> sdist s = D -> tw_s (rstep w s) = tw_s w ->
   (forall o v, tw_cov w o.1 -> err (snext o s v) = err o) ->
   psd (e_P (tw_s (rstep w s))) /\
   exists k (M : 'M[R]_n) (G : 'M[R]_(n, k)) (C : 'M[R]_k), centred (sdist s) C /\
    (forall Sg, lemx Sg (e_P (tw_s w)) -> lemx (M *m Sg *m M^T + G *m C *m G^T) (e_P (tw_s (rstep w s)))) /\
    forall o v, tw_cov w o.1 -> err (snext o s v) = M *m err o + G *m v k.
  move=> T ED ES EE; split; first by rewrite ES.
  exists 0%N, 1%:M, 0, 0; rewrite ED; split; first exact: centred0.
  split=> [Sg|o v H]; first by rewrite ES trmx1 mulmx1 mul1mx mulmx0 mul0mx addr0.
  by rewrite EE // mul1mx mul0mx addr0.
case: s Ho triv => [D|lam D|i D|j D|i g|t] Ho triv.
- case: Ho => pQ Ho; have Hl := Ho.2.2; split; first exact: predict_psd.
  exists n, (tw_A w), (- 1%:M), (expect D (fun v => v n *m (v n)^T)); split; first exact: centred_at Ho.
  split=> [Sg H|[w' xt] v [EA _]]; last by rewrite /err /= -EA; mxzmod.
  rewrite /rstep /= linearN /= trmx1 mulmxN mulNmx mulmx1 mul1mx opprK.
  by apply: lemxD => //; apply: lemx_congr.
- case: Ho => l0 [l1 [pQ Ho]]; have Hl := Ho.2.2; split; first exact: tuned_psd.
  exists n, (tw_A w), (- 1%:M), (expect D (fun v => v n *m (v n)^T)); split; first exact: centred_at Ho.
  split=> [Sg H|[w' xt] v [EA _]]; last by rewrite /err /= -EA; mxzmod.
  rewrite /rstep /= linearN /= trmx1 mulmxN mulNmx mulmx1 mul1mx opprK.
  apply: lemxD => //; apply: lemx_trans (lemx_congr _ H) _.
  rewrite /lemx -{2}[_ *m _]scale1r -scalerBl; apply: psdZ; last exact: psd_congr.
  by rewrite subr_ge0 invr_ge1 ?unitfE ?expf_neq0 // ?exprn_even_gt0.
- move: Ho triv; rewrite /rstep /=; case E: (nth_error _ i) => [[m B u Qc]|] Ho triv.
  + case: Ho => pQ Ho; have Hl := Ho.2.2; split; first exact: control_psd.
    exists m, 1%:M, (- B), (expect D (fun v => v m *m (v m)^T)); split; first exact: centred_at Ho.
    split=> [Sg H|[w' xt] v [_ [_ [_ [FC _]]]]].
      rewrite trmx1 mulmx1 mul1mx linearN /= mulmxN !mulNmx opprK; apply: lemxD => //; exact: lemx_congr.
    rewrite /err /=; have := F2nth i FC; rewrite E.
    case: (nth_error _ i) => [k2|] // /ctl_covE [u2 ->] /=; mxzmod.
  + apply: (triv D) => // -[w' xt] v [_ [_ [_ [FC _]]]]; rewrite /err /=; have := F2nth i FC; rewrite E.
    by case: (nth_error _ i).
- move: Ho triv; rewrite /rstep /=; case E: (nth_error _ j) => [[m H z Rm]|] Ho triv.
  + have [Hm [pR Ha]] := Ho; set K := t_K H Rm (e_P (tw_s w)).
    have pS := S_pd H pP pR; have sP := pP.1.
    have [_ [_ [ES _]]] := measure_do (H *m 0 + @no_noise R m) E.
    have EP : e_P (tw_s (trun w [:: TSetZ j (fun m' => conform_mx 0 (H *m 0 + @no_noise R m)); TCorrect j])) = Ppost H Rm (e_P (tw_s w)).
      by rewrite ES t_correct_P.
    split; first by rewrite -/(trun w _) EP; apply: Ppost_psd => //; apply: pd_psd.
    exists m, (1%:M - K *m H), K, (expect D (fun v => v m *m (v m)^T)); split; first exact: centred_at Ha.
    split=> [Sg Hs|[w' xt] v [_ [_ [EP' [_ FO]]]]].
      rewrite -/(trun w _) EP -(joseph_K sP pS); apply: lemxD; first exact: lemx_congr.
      by apply: lemx_congr; exact: Ha.2.2.
    rewrite /snext /err /= in EP' *; have := F2nth j FO; rewrite E.
    case E2: (nth_error _ j) => [k2|] // /obs_covE [z2 Ek]; rewrite {}Ek in E2 *; rewrite -/(trun _ _).
    have [_ [_ [-> _]]] := measure_do (H *m xt + v m) E2; rewrite /= -EP' -/K.
    by mxzmod.
  + apply: (triv D) => // -[w' xt] v [_ [_ [_ [_ FO]]]]; rewrite /err /snext /=; have := F2nth j FO; rewrite E.
    by case: (nth_error _ j).
- by apply: (triv [:: (1, @no_noise R)]) => //; apply: mass1.
- by apply: (triv [:: (1, @no_noise R)]) => //; [apply: mass1|case: t Ho triv|case: t Ho triv].
Qed.

Definition inv_le w (D : dist R (tworld R n * 'cV[R]_n)) : Prop :=
  psd (e_P (tw_s w)) /\ List.Forall (fun o => tw_cov w o.2.1) D /\ mass D = 1 /\ expect D (@err R n) = 0 /\
  lemx (expect D (fun o => err o *m (err o)^T)) (e_P (tw_s w)).

Lemma step_inv_le w s D : inv_le w D -> sop_safe w s -> inv_le (rstep w s) (stepD s D).
Proof.
move=> [pP [F [T [m0 c0]]]] Ho; have Hr := safe_runs pP Ho.
have [pP' [k [M [G [C [Hc [EP Ea]]]]]]] := step_safe Ho pP.
split=> //; split; [|split; [|split]].
- rewrite /stepD /dbind; elim: F => [|o l H _ IH] /=; first by constructor.
  apply/List.Forall_app; split=> //; apply: Forall_map'; rewrite /dmap; apply: Forall_map'.
  elim: (sdist s) => [|v l' IHv]; constructor=> //=.
  by apply: step_cov.
- by rewrite mass_bind ?T // => o; rewrite mass_map; exact: Hr.1.
- rewrite expect_bind (@eq_expect_in _ _ _ _ _ _ (fun o => expect (sdist s) (fun v => M *m err o + G *m v k))); first exact: (affine_mean _ _ Hc m0).
  by apply: Forall_imp F => o H; rewrite expect_map; apply: eq_expect => v; rewrite Ea.
- rewrite expect_bind (@eq_expect_in _ _ _ _ _ _ (fun o => expect (sdist s) (fun v => (M *m err o + G *m v k) *m (M *m err o + G *m v k)^T))).
    by rewrite (affine_cov _ _ Hc T m0 (erefl _)); apply: EP.
  by apply: Forall_imp F => o H; rewrite expect_map; apply: eq_expect => v; rewrite Ea.
Qed.

Lemma run_inv_le w ss D : inv_le w D -> sops_safe w ss -> inv_le (srun w ss) (foldl (fun D s => stepD s D) D ss) /\ sops_runs w ss.
Proof.
elim: ss w D => [|s ss IH] w D //= H [Ho Hs]; have H' := step_inv_le H Ho.
by have [H1 H2] := IH _ _ H' Hs; do 2 split=> //; apply: safe_runs => //; exact: H.1.
Qed.

Theorem sim_from_le w D0 ss : safe_start w D0 -> sops_safe w ss ->
  let outs := sim_from w D0 ss in let e (r : seq (top R n) * 'cV[R]_n) := e_x (tw_s (trun w r.1)) - r.2 in
  psd (e_P (tw_s (srun w ss))) /\
  List.Forall (fun o => ops_ok w o.2.1 /\ e_P (tw_s (trun w o.2.1)) = e_P (tw_s (srun w ss))) outs /\
  mass outs = 1 /\ expect outs e = 0 /\ lemx (expect outs (fun r => e r *m (e r)^T)) (e_P (tw_s (srun w ss))).
Proof.
move=> [pP [T [m0 c0]]] Hs outs e.
have I0 : inv_le w (dmap (fun xt => (w, xt)) D0).
  split=> //; split; [|split; [|split]].
  - by apply: Forall_map'; elim: D0 {T m0 c0 outs} => [|x l IH]; constructor=> //=; apply: tw_cov_refl.
  - by rewrite mass_map.
  - by rewrite expect_map.
  - by rewrite expect_map.
have [[pP' [_ [T1 [m1 c1]]]] Hr] := run_inv_le I0 Hs.
have EE k l (f : tworld R n * 'cV[R]_n -> 'M[R]_(k, l)) : expect outs (fun r => f (trun w r.1, r.2)) =
   expect (foldl (fun D s => stepD s D) (dmap (fun xt => (w, xt)) D0) ss) f.
  rewrite -sim_expect expect_map; exact: (@expect_bind _ _ _ _ _ D0 (fun x => sim w x ss)).
split=> //; split; [|split; [|split]].
- apply: Forall_flat => x; apply: Forall_map'; apply: Forall_imp (sim_ok x.2 (tw_cov_refl w) Hr) => r [H [_ [_ [EP _]]]].
  by rewrite /= EP.
- have -> : outs = dbind D0 (fun x => sim w x ss) by [].
  by rewrite mass_bind // => x; apply: sim_mass (tw_cov_refl w) Hr.
- by rewrite (EE _ _ (@err R n)).
- by rewrite (EE _ _ (fun o => err o *m (err o)^T)).
Qed.
End World.

(** ** programs *)
Variables (c : cfg) (n : nat).
Local Notation N := (@exact_num R).
Local Notation abs := (world_abs n).
Local Notation den w os ts := (List.Forall2 (@denotes R c n w) os ts).
Local Notation wx w := (mx n 1 (kf_x (w_kf w))).
Local Notation wP w := (mx n n (kf_P (w_kf w))).

Theorem run_conservative (w : world R) (D0 : dist R 'cV[R]_n) (ss : seq (sop R n)) (prog : seq (top R n) -> seq (op R)) :
  world_ok c n w -> safe_start (abs w) D0 -> sops_safe (abs w) ss ->
  let outs := sim_from (abs w) D0 ss in
  List.Forall (fun o => den w (prog o.2.1) o.2.1) outs ->
  let err (o : seq (top R n) * 'cV[R]_n) := (if run c N n w (prog o.1) is Ok w' then wx w' else 0) - o.2 in
  exists P : 'M[R]_n,
    List.Forall (fun o => exists w', run c N n w (prog o.2.1) = Ok w' /\ wP w' = P) outs /\
    mass outs = 1 /\ expect outs err = 0 /\ lemx (expect outs (fun o => err o *m (err o)^T)) P.
Proof.
move=> W G S outs Hd er; have := sim_from_le G S; rewrite -/outs /= => -[_ [F [T [m0 c0]]]].
exists (e_P (tw_s (srun (abs w) ss))).
have F' : List.Forall (fun o => (exists w', run c N n w (prog o.2.1) = Ok w' /\ wP w' = e_P (tw_s (srun (abs w) ss))) /\
    er o.2 = e_x (tw_s (trun (abs w) o.2.1)) - o.2.2) outs.
  elim: F Hd => [|o l [H1 H2] _ IH] Hd; first by constructor.
  have [D Hd'] : den w (prog o.2.1) o.2.1 /\ List.Forall (fun o => den w (prog o.2.1) o.2.1) l by inversion Hd.
  constructor; last exact: IH.
  have [w' [E [_ [_ [_ A]]]]] := run_refines W D H1; rewrite /er E -A; split=> //.
  by exists w'; split=> //; rewrite -H2 -A.
split; first by apply: Forall_imp F' => o [].
split=> //; split.
  by rewrite -m0; apply: eq_expect_in; apply: Forall_imp F' => o [_ ->].
have -> : expect outs (fun o => er o *m (er o)^T) = expect outs (fun o => (e_x (tw_s (trun (abs w) o.1)) - o.2) *m (e_x (tw_s (trun (abs w) o.1)) - o.2)^T).
  by apply: eq_expect_in; apply: Forall_imp F' => o [_ ->].
exact: c0.
Qed.

(** ** normalised squares *)
Lemma expect_nsq A k (D : dist R A) (f : A -> 'cV[R]_k) (S : 'M[R]_k) : S \in unitmx ->
  expect D (fun a => f a *m (f a)^T) = S ->
  \sum_(o <- D) o.1 * qf (invmx S) (f o.2) = k%:R.
Proof.
move=> uS E.
have -> : \sum_(o <- D) o.1 * qf (invmx S) (f o.2) = \tr (invmx S *m expect D (fun a => f a *m (f a)^T)).
  rewrite -expectM /expect raddf_sum /=; apply: eq_bigr => o _.
  rewrite mxtraceZ; congr (_ * _); rewrite /qf -trace_mx11.
  by rewrite -mulmxA mxtrace_mulC mulmxA.
by rewrite E mulVmx // mxtrace1.
Qed.

(** a positive definite matrix is a square: run the library's own decomposition *)
Lemma pd_factor k (M : 'M[R]_k) : pd M -> exists L : 'M[R]_k, M = L *m L^T.
Proof.
case: k M => [|k] M pM; first by exists 0; apply/matrixP=> -[].
pose cc := Build_cfg (PeanoNat.Nat.add (k.+1 * k.+1) (k.+1 * k.+1)) true true false.
have V : valid cc k.+1 k.+1 (of_mx M).
  apply: of_mx_valid; rewrite /fits /imax.
  have -> : umaxZ cc = BinInt.Z.add (Z.of_nat (k.+1 * k.+1)) (Z.of_nat (k.+1 * k.+1)) by exact: Znat.Nat2Z.inj_add.
  by apply: (BinInt.Z.div_le_lower_bound _ 2) => //; lia.
have sM : sym (mx k.+1 k.+1 (of_mx M)) by rewrite mx_of; exact: pM.1.
have [ok [l [_ [_ [I E]]]]] := cholesky_main (ltn0Sn k) V sM.
by have [_ [E2 _]] := E (proj2 I (eq_ind_r (fun m => pd m) pM (mx_of M))); exists (mx k.+1 k.+1 l); rewrite E2 mx_of.
Qed.
Lemma tr_psd k (M : 'M[R]_k) : psd M -> 0 <= \tr M.
Proof. by move=> pM; apply: sumr_ge0 => i _; apply: psd_diag. Qed.
Lemma tr_pd_psd k (A M : 'M[R]_k) : pd A -> psd M -> 0 <= \tr (A *m M).
Proof.
move=> /pd_factor [L ->] pM; rewrite -mulmxA mxtrace_mulC.
rewrite -{2}[L]trmxK; exact: tr_psd (psd_congr _ pM).
Qed.
Lemma tr_sum_qf A k (D : dist R A) (f : A -> 'cV[R]_k) (V : 'M[R]_k) :
  \sum_(o <- D) o.1 * qf V (f o.2) = \tr (V *m expect D (fun a => f a *m (f a)^T)).
Proof.
rewrite -expectM /expect raddf_sum /=; apply: eq_bigr => o _.
rewrite mxtraceZ; congr (_ * _); rewrite /qf -trace_mx11.
by rewrite -mulmxA mxtrace_mulC mulmxA.
Qed.
Lemma expect_nsq_le A k (D : dist R A) (f : A -> 'cV[R]_k) (S : 'M[R]_k) : pd S ->
  lemx (expect D (fun a => f a *m (f a)^T)) S -> \sum_(o <- D) o.1 * qf (invmx S) (f o.2) <= k%:R.
Proof.
move=> pS H; rewrite tr_sum_qf -subr_ge0.
have -> : k%:R - \tr (invmx S *m expect D (fun a => f a *m (f a)^T)) = \tr (invmx S *m (S - expect D (fun a => f a *m (f a)^T))).
  by rewrite mulmxBr raddfB /= mulVmx ?pd_unit // mxtrace1.
exact: tr_pd_psd (pd_inv pS) H.
Qed.

(** normalised estimation error *)
Theorem run_nees (w : world R) (D0 : dist R 'cV[R]_n) (ss : seq (sop R n)) (prog : seq (top R n) -> seq (op R)) :
  world_ok c n w -> good_start (abs w) D0 -> sops_ok (abs w) ss ->
  let outs := sim_from (abs w) D0 ss in
  List.Forall (fun o => den w (prog o.2.1) o.2.1) outs ->
  let err (o : seq (top R n) * 'cV[R]_n) := (if run c N n w (prog o.1) is Ok w' then wx w' else 0) - o.2 in
  exists P : 'M[R]_n,
    List.Forall (fun o => exists w', run c N n w (prog o.2.1) = Ok w' /\ wP w' = P) outs /\
    (P \in unitmx -> \sum_(o <- outs) o.1 * qf (invmx P) (err o.2) = n%:R).
Proof.
move=> W G S outs Hd er; have [P [F [_ [_ c0]]]] := run_true_cov W G S Hd.
by exists P; split=> // uP; exact: (expect_nsq uP c0).
Qed.
Theorem run_nees_le (w : world R) (D0 : dist R 'cV[R]_n) (ss : seq (sop R n)) (prog : seq (top R n) -> seq (op R)) :
  world_ok c n w -> safe_start (abs w) D0 -> sops_safe (abs w) ss ->
  let outs := sim_from (abs w) D0 ss in
  List.Forall (fun o => den w (prog o.2.1) o.2.1) outs ->
  let err (o : seq (top R n) * 'cV[R]_n) := (if run c N n w (prog o.1) is Ok w' then wx w' else 0) - o.2 in
  exists P : 'M[R]_n,
    List.Forall (fun o => exists w', run c N n w (prog o.2.1) = Ok w' /\ wP w' = P) outs /\
    (pd P -> \sum_(o <- outs) o.1 * qf (invmx P) (err o.2) <= n%:R).
Proof.
move=> W G S outs Hd er; have [P [F [_ [_ c0]]]] := run_conservative W G S Hd.
by exists P; split=> // pP; exact: (expect_nsq_le pP c0).
Qed.
(** normalised innovation *)
Theorem run_nis (w : world R) (D0 : dist R 'cV[R]_n) (ss : seq (sop R n)) j D m (H : 'M[R]_(m, n)) z Rm (prog : seq (top R n) -> seq (op R)) :
  world_ok c n w -> good_start (abs w) D0 -> sops_ok (abs w) (rcons ss (SMeasure j D)) ->
  nth_error (tw_ob (srun (abs w) ss)) j = Some (TObs H z Rm) ->
  let outs := sim_from (abs w) D0 (rcons ss (SMeasure j D)) in
  List.Forall (fun o => den w (prog o.2.1) o.2.1) outs ->
  let y (o : seq (top R n) * 'cV[R]_n) : 'cV[R]_m :=
    if run c N n w (prog o.1) is Ok w' then (if nth_error (w_ob w') j is Some (_, b) then mx m 1 (ob_y b) else 0) else 0 in
  \sum_(o <- outs) o.1 * qf (invmx (H *m e_P (tw_s (srun (abs w) ss)) *m H^T + Rm)) (y o.2) = m%:R.
Proof.
move=> W G S Es outs Hd y; have [_ [_ c0]] := run_innovation W G S Es Hd.
have [_ S2] : sops_ok (abs w) ss /\ sops_ok (srun (abs w) ss) [:: SMeasure j D] by apply/sops_ok_cat; rewrite cats1.
have pS : pd (t_S H Rm (e_P (tw_s (srun (abs w) ss)))) by case: S2 => + _; rewrite /= Es => -[_ []].
exact: (expect_nsq (pd_unit pS) c0).
Qed.
End Robust.
