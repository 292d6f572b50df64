(** * No other choice of gains does better, over any history *)
From Verif Require Import Spec Matrix Filter Extended SpecFilter History SpecGen SpecExact SpecHistory SpecWorld SpecRival Zmod Psd KMath HistGen FilterExact HistExact WorldMath.
From mathcomp Require Import all_ssreflect all_algebra.
Set Implicit Arguments.
Unset Strict Implicit.
Unset Printing Implicit Defensive.
Import Order.TTheory GRing.Theory Num.Theory.
Local Open Scope ring_scope.

Section Rival.
Variable R : rcfType.
Variables (c : cfg) (n : nat).
Local Notation N := (@exact_num R).
Local Notation abs := (world_abs n).
Local Notation den w os ts := (List.Forall2 (@denotes R c n w) os ts).
Local Notation wP w := (mx n n (kf_P (w_kf w))).

Lemma rival_correct (o : tobs R n) s (g : forall m, 'M[R]_(n, m)) S : obs_good o -> psd (e_P s) -> lemx (e_P s) S ->
  lemx (e_P (do_correct o s)) (let: TObs m H z Rm := o in (1%:M - g m *m H) *m S *m (1%:M - g m *m H)^T + g m *m Rm *m (g m)^T).
Proof.
case: o => m H z Rm [m0 pR] pP L; rewrite [do_correct _ _]/= t_correct_P.
have pS := S_pd H pP pR.
apply: lemx_trans (joseph_opt (g m) _ pS) _; first by case: pP.
exact: (joseph_le H Rm (g m) L).
Qed.

Lemma rival_step (w : tworld R n) t g S : tw_good w -> op_good w t -> lemx (e_P (tw_s w)) S ->
  lemx (e_P (tw_s (tstep w t))) (phi_step w t g *m S *m (phi_step w t g)^T + noise_step w t g).
Proof.
move=> [pP [pQ [Fc Fo]]]; have E1 (M : 'M[R]_n) : 1%:M *m M *m 1%:M^T + 0 = M by rewrite trmx1 mul1mx mulmx1 addr0.
case: t => [|lam|F|lam F|i|j|j F|M|v|M|M|i M|i M|i M|j M|j M|j M] /= Hg L; rewrite ?E1 ?mul0mx ?add0r //; try exact: lemx_refl.
- by apply: lemxD; [exact: lemx_congr|exact: lemx_refl].
- apply: (lemxD _ (lemx_refl _)); rewrite linearZ /= -!scalemxAl -scalemxAr scalerA -invfM -expr2.
  by apply: lemxZ; [rewrite invr_ge0 sqr_ge0|exact: lemx_congr].
- by apply: lemxD; [exact: lemx_congr|exact: lemx_refl].
- apply: (lemxD _ (lemx_refl _)); rewrite linearZ /= -!scalemxAl -scalemxAr scalerA -invfM -expr2.
  by apply: lemxZ; [rewrite invr_ge0 sqr_ge0|exact: lemx_congr].
- case E: (nth_error _ i) => [[m B u Qc]|] /=; rewrite ?E1 // trmx1 mul1mx mulmx1.
  by apply: lemxD => //; exact: lemx_refl.
- case E: (nth_error _ j) => [o|] /=; rewrite ?E1 //.
  by have := rival_correct g (Fnth Fo E) pP L; case: o E.
- case E: (nth_error _ j) => [o|] /=; rewrite ?E1 // nl_P.
  by have := rival_correct g (Fnth Fo E) pP L; case: o E.
Qed.

Lemma rival_run (w : tworld R n) ts g S : tw_good w -> ops_good w ts -> lemx (e_P (tw_s w)) S ->
  lemx (e_P (tw_s (trun w ts))) (rival_cov w ts g S).
Proof.
elim: ts w g S => [|t ts IH] w g S G /=; first by [].
move=> [Hg Hs] L; have [_ G'] := step_good G Hg.
by apply: (IH (tstep w t)) => //; exact: rival_step.
Qed.

Lemma rival_affine (w : tworld R n) ts g S : rival_cov w ts g S = rival_phi w ts g *m S *m (rival_phi w ts g)^T + rival_cov w ts g 0.
Proof.
elim: ts w g S => [|t ts IH] w g S /=; first by rewrite trmx1 mul1mx mulmx1 addr0.
rewrite IH [RHS]addrC [in RHS]IH mulmx0 mul0mx add0r trmx_mul.
by rewrite mulmxDr mulmxDl !mulmxA [RHS]addrC !addrA.
Qed.
Lemma rival_psd (w : tworld R n) ts g S : tw_good w -> ops_good w ts -> psd S -> psd (rival_cov w ts g S).
Proof.
elim: ts w g S => [|t ts IH] w g S G /=; first by [].
move=> [Hg Hs] pS; have [_ G'] := step_good G Hg; apply: (IH (tstep w t)) => //.
have [pP [pQ [Fc Fo]]] := G; apply: psdD; first exact: psd_congr.
have p0 : psd (0 : 'M[R]_n) by exact: psd0.
case: t Hg {Hs G'} => [|lam|F|lam F|i|j|j F|M|v|M|M|i M|i M|i M|j M|j M|j M] //= _.
- by case E: (nth_error _ i) => [[m B u Qc]|] //=; apply: psd_congr; exact: (Fnth Fc E).
- by case E: (nth_error _ j) => [[m H z Rm]|] //=; apply: psd_congr; apply: pd_psd; have [] := Fnth Fo E.
- by case E: (nth_error _ j) => [[m H z Rm]|] //=; apply: psd_congr; apply: pd_psd; have [] := Fnth Fo E.
Qed.


(** the filter's own gains reach the bound *)
Definition own_gain (o : tobs R n) (P : 'M[R]_n) (m : nat) : 'M[R]_(n, m) :=
  let: TObs m' H z Rm := o in if @eqP _ m' m is ReflectT e then castmx (erefl n, e) (t_K H Rm P) else 0.
Lemma own_gainE m (H : 'M[R]_(m, n)) z Rm P : own_gain (TObs H z Rm) P m = t_K H Rm P.
Proof. by rewrite /own_gain; case: eqP => // e; rewrite castmx_id. Qed.
Lemma own_correct (o : tobs R n) s : obs_good o -> psd (e_P s) ->
  let g := own_gain o (e_P s) in
  e_P (do_correct o s) = (let: TObs m H z Rm := o in (1%:M - g m *m H) *m e_P s *m (1%:M - g m *m H)^T + g m *m Rm *m (g m)^T).
Proof.
case: o => m H z Rm [m0 pR] pP g; rewrite /g own_gainE [do_correct _ _]/= t_correct_P.
by rewrite -(joseph_K (proj1 pP) (S_pd H pP pR)).
Qed.
Lemma own_step (w : tworld R n) t : tw_good w -> op_good w t -> exists g,
  e_P (tw_s (tstep w t)) = phi_step w t g *m e_P (tw_s w) *m (phi_step w t g)^T + noise_step w t g.
Proof.
move=> [pP [pQ [Fc Fo]]]; have E1 (M : 'M[R]_n) : 1%:M *m M *m 1%:M^T + 0 = M by rewrite trmx1 mul1mx mulmx1 addr0.
pose g0 : forall m, 'M[R]_(n, m) := fun m => 0.
case: t => [|lam|F|lam F|i|j|j F|M|v|M|M|i M|i M|i M|j M|j M|j M] /= Hg; try (by exists g0; rewrite ?E1 ?mul0mx ?add0r).
- by exists g0; rewrite linearZ /= -!scalemxAl -scalemxAr scalerA -invfM -expr2.
- by exists g0; rewrite linearZ /= -!scalemxAl -scalemxAr scalerA -invfM -expr2.
- exists g0; case E: (nth_error _ i) => [[m B u Qc]|] /=; rewrite ?E1 // trmx1 mul1mx mulmx1 //.
- case E: (nth_error _ j) => [o|] /=; last by exists g0; rewrite E1.
  by exists (own_gain o (e_P (tw_s w))); rewrite (own_correct (Fnth Fo E) pP); case: o E.
- case E: (nth_error _ j) => [o|] /=; last by exists g0; rewrite E1.
  by exists (own_gain o (e_P (tw_s w))); rewrite nl_P (own_correct (Fnth Fo E) pP); case: o E.
Qed.
Lemma own_run (w : tworld R n) ts : tw_good w -> ops_good w ts -> exists g, e_P (tw_s (trun w ts)) = rival_cov w ts g (e_P (tw_s w)).
Proof.
elim: ts w => [|t ts IH] w G /=; first by exists (fun _ _ => 0).
move=> [Hg Hs]; have [_ G'] := step_good G Hg; have [g0 E0] := own_step G Hg; have [g Eg] := IH _ G' Hs.
by exists (fun k => if k is k'.+1 then g k' else g0); rewrite -E0 /= Eg.
Qed.

(** repeated cycles *)
Lemma nth_error_map' (A B : Type) (f : A -> B) i (l : seq A) : nth_error (List.map f l) i = if nth_error l i is Some a then Some (f a) else None.
Proof. by elim: l i => [|a l IH] [|i] //=. Qed.
Lemma alter_map (A B : Type) (f : A -> B) (g : A -> A) i (l : seq A) : (forall a, f (g a) = f a) -> List.map f (alter g i l) = List.map f l.
Proof. by move=> E; elim: l i => [|a l IH] [|i] //=; rewrite ?E ?IH. Qed.
Lemma phi_model (w : tworld R n) t g : phi_step (model_of w) t g = phi_step w t g.
Proof. by case: t => //= j *; rewrite nth_error_map'; case: (nth_error _ _) => [[]|]. Qed.
Lemma noise_model (w : tworld R n) t g : noise_step (model_of w) t g = noise_step w t g.
Proof. by case: t => //= j *; rewrite nth_error_map'; case: (nth_error _ _) => [[]|]. Qed.
Lemma phi_call (w : tworld R n) t t0 g : same_call t t0 -> phi_step w t g = phi_step w t0 g.
Proof. by case: t; case: t0 => //= *; subst. Qed.
Lemma noise_call (w : tworld R n) t t0 g : same_call t t0 -> noise_step w t g = noise_step w t0 g.
Proof. by case: t; case: t0 => //= *; subst. Qed.
Lemma model_step (w : tworld R n) t t0 : same_call t t0 -> model_of (tstep w t) = model_of w.
Proof. by case: t; case: t0 => //= *; rewrite /model_of /= alter_map //; case. Qed.
Lemma same_call_sym (t t0 : top R n) : same_call t t0 -> same_call t0 t.
Proof. by case: t; case: t0 => //= *; subst. Qed.
Lemma rival_same (w w0 : tworld R n) ts ts0 g S : model_of w = model_of w0 -> List.Forall2 (@same_call R n) ts ts0 ->
  rival_cov w ts g S = rival_cov w0 ts0 g S /\ model_of (trun w ts) = model_of w.
Proof.
move=> E F; elim: F w w0 g S E => {ts ts0} [//|t t0 ts ts0 Ht _ IH] w w0 g S E /=.
have E1 := model_step w Ht; have E2 := model_step w0 (same_call_sym Ht).
have E' : model_of (tstep w t) = model_of (tstep w0 t0) by rewrite E1 E.
rewrite -phi_model -noise_model E phi_model noise_model (phi_call _ _ Ht) (noise_call _ _ Ht).
have [-> Em] := IH _ _ (fun k => g k.+1) (phi_step w0 t0 (g 0%N) *m S *m (phi_step w0 t0 (g 0%N))^T + noise_step w0 t0 (g 0%N)) E'.
by split=> //; exact: etrans Em (etrans E1 E).
Qed.
Lemma ops_good_cat (w : tworld R n) ts1 ts2 : ops_good w (ts1 ++ ts2) -> ops_good w ts1 /\ ops_good (trun w ts1) ts2.
Proof. by elim: ts1 w => [|t ts1 IH] w //= [a /IH [b b']]. Qed.
Lemma rival_cycles (w w0 : tworld R n) (cs : seq (seq (top R n))) ts0 g M : tw_good w -> ops_good w (List.concat cs) -> model_of w = model_of w0 ->
  List.Forall (fun ts => List.Forall2 (@same_call R n) ts ts0) cs -> lemx (rival_cov w0 ts0 g M) M -> lemx (e_P (tw_s w)) M ->
  lemx (e_P (tw_s (trun w (List.concat cs)))) M.
Proof.
move=> G Hs E F LM; elim: F w G Hs E => {cs} [//|ts cs Ht _ IH] w G /= /ops_good_cat [H1 H2] E L.
rewrite /trun foldl_cat -!/(trun _ _); have [_ G'] := run_good G H1.
have [Er Em] := rival_same g M E Ht.
apply: IH => //; first by rewrite Em.
by apply: lemx_trans (rival_run g G H1 L) _; rewrite Er.
Qed.

(** ** runs of the code *)
Theorem run_rival (w : world R) os ts (g : gains R n) : world_ok c n w -> den w os ts -> tw_good (abs w) -> ops_good (abs w) ts ->
  exists w', run c N n w os = Ok w' /\ lemx (wP w') (rival_cov (abs w) ts g (wP w)).
Proof.
move=> W D G Hs; have [Ho _] := run_good G Hs; have [w' [E [_ [_ [_ A]]]]] := run_refines W D Ho.
exists w'; split=> //; have := rival_run g G Hs (lemx_refl (e_P (tw_s (abs w)))).
by rewrite -A.
Qed.
Theorem run_rival_split (w : world R) os ts (g : gains R n) : world_ok c n w -> den w os ts -> tw_good (abs w) -> ops_good (abs w) ts ->
  exists w', run c N n w os = Ok w' /\
    lemx (wP w') (rival_phi (abs w) ts g *m wP w *m (rival_phi (abs w) ts g)^T + rival_cov (abs w) ts g 0).
Proof. by move=> W D G Hs; have [w' [E L]] := run_rival g W D G Hs; exists w'; split=> //; rewrite -rival_affine. Qed.
Theorem run_deadbeat (w : world R) os ts (g : gains R n) : world_ok c n w -> den w os ts -> tw_good (abs w) -> ops_good (abs w) ts ->
  rival_phi (abs w) ts g = 0 -> exists w', run c N n w os = Ok w' /\ lemx (wP w') (rival_cov (abs w) ts g 0).
Proof. by move=> W D G Hs E0; have [w' [E]] := run_rival_split g W D G Hs; rewrite E0 !mul0mx add0r; exists w'. Qed.
Theorem run_own (w : world R) os ts : world_ok c n w -> den w os ts -> tw_good (abs w) -> ops_good (abs w) ts ->
  exists w' g, run c N n w os = Ok w' /\ wP w' = rival_cov (abs w) ts g (wP w).
Proof.
move=> W D G Hs; have [Ho _] := run_good G Hs; have [w' [E [_ [_ [_ A]]]]] := run_refines W D Ho.
by have [g Eg] := own_run G Hs; exists w', g; split=> //; move: Eg; rewrite -A.
Qed.
Theorem run_for_ever (w : world R) os (cs : seq (seq (top R n))) ts0 (g : gains R n) M : world_ok c n w -> den w os (List.concat cs) ->
  tw_good (abs w) -> ops_good (abs w) (List.concat cs) -> List.Forall (fun ts => List.Forall2 (@same_call R n) ts ts0) cs ->
  lemx (wP w) M -> lemx (rival_cov (abs w) ts0 g M) M ->
  exists w', run c N n w os = Ok w' /\ lemx (wP w') M.
Proof.
move=> W D G Hs F L LM; have [Ho _] := run_good G Hs; have [w' [E [_ [_ [_ A]]]]] := run_refines W D Ho.
by exists w'; split=> //; have := rival_cycles G Hs erefl F LM L; rewrite -A.
Qed.
End Rival.
