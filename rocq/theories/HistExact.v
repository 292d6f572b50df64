(** * Histories over exact arithmetic refine the textbook filter *)
From Coq Require Import Lia.
From Verif Require Import Spec Matrix Filter Extended SpecFilter History SpecGen Wp Kernels Access Chol Inv FilterGen FilterTwo HistGen HistTwo SpecExact SpecHistory Exact Psd CholExact KMath FilterExact.
From mathcomp Require Import all_ssreflect all_algebra.
Set Implicit Arguments.
Unset Strict Implicit.
Unset Printing Implicit Defensive.
Import Order.TTheory GRing.Theory Num.Theory.
Local Open Scope ring_scope.

Section HistExact.
Variable R : rcfType.
Variables (c : cfg) (n : nat).
Local Notation N := (@exact_num R).

Lemma mx_put r s (old new : seq R) : valid c r s old -> (r * s <= length new)%N -> mx r s (put old new) = mx r s new.
Proof.
move=> [V _] L; apply/matrixP => i j; rewrite !mxE.
have H : (i * s + j < r * s)%N.
  by apply/ssrnat.ltP; apply: idx_lt; apply/ssrnat.ltP.
have H1 : Nat.lt (i * s + j)%N (length old) by apply/ssrnat.ltP; apply: leq_trans H _; apply/ssrnat.leP.
have H2 : Nat.lt (i * s + j)%N (length new) by apply/ssrnat.ltP; apply: leq_trans H _.
have := nth_put old new _ H1; move/Nat.ltb_lt: (H2) => ->.
have [v [E _]] := rd_some _ _ H2; rewrite E => E'.
by rewrite (nth_error_nth E) (nth_error_nth E').
Qed.

Lemma map_upd_alter {A B} (g : A -> B) (h : B -> B) l i v v' : nth_error l i = Some v -> g v' = h (g v) ->
  List.map g (upd l i v') = alter h i (List.map g l).
Proof. by elim: l i => [|a l IH] [|i] //= E H; [case: E => ->; rewrite H|rewrite (IH _ E H)]. Qed.
Lemma alter_none {B} (h : B -> B) l i : nth_error l i = None -> alter h i l = l.
Proof. by elim: l i => [|a l IH] [|i] //= E; rewrite IH. Qed.
Lemma map_upd_same {A B} (g : A -> B) l i v v' : nth_error l i = Some v -> g v' = g v -> List.map g (upd l i v') = List.map g l.
Proof. exact: map_upd. Qed.

Lemma abs_set_kf (w : world R) f : kf_same_model (w_kf w) f -> world_abs n (set_kf w f) = tw_est (world_abs n w) (kf_est n f).
Proof. by rewrite /world_abs /tw_est /= => -[-> ->]. Qed.

Lemma nth_map_abs {A B} (g : A -> B) l i : nth_error (List.map g l) i = match nth_error l i with Some v => Some (g v) | None => None end.
Proof. by elim: l i => [|a l IH] [|i] //=. Qed.

Lemma step_refines (w : world R) o (t : top R n) : world_ok c n w -> denotes c w o t -> op_ok (world_abs n w) t ->
  exists w', step c N n w o = Ok w' /\ world_ok c n w' /\ ct_dims w' = ct_dims w /\ ob_dims w' = ob_dims w /\
    world_abs n w' = tstep (world_abs n w) t.
Proof.
move=> Hw; have [/ssrnat.leP Hn [[Vf [Vc Vo]] Hd]] := Hw.
have KF : forall (m : res (kalman R)) (s : est R n),
   (exists f', m = Ok f' /\ kf_valid c n f' /\ kf_same_model (w_kf w) f' /\ kf_same_tail n (w_kf w) f' /\ kf_est n f' = s) ->
   exists w', bind m (fun f => Ok (set_kf w f)) = Ok w' /\ world_ok c n w' /\ ct_dims w' = ct_dims w /\ ob_dims w' = ob_dims w /\
     world_abs n w' = tw_est (world_abs n w) s.
  move=> m s [f' [-> [V [M [_ E]]]]]; exists (set_kf w f'); split=> //; split; first exact: set_kf_ok.
  by do 2 split=> //; rewrite abs_set_kf // E.
have SK : forall f, kf_valid c n f -> exists w', Ok (set_kf w f) = Ok w' /\ world_ok c n w' /\ ct_dims w' = ct_dims w /\ ob_dims w' = ob_dims w /\
     world_abs n w' = TW (mx n n (kf_A f)) (mx n n (kf_Q f)) (kf_est n f) (tw_ct (world_abs n w)) (tw_ob (world_abs n w)).
  move=> f V; exists (set_kf w f); split=> //; split; first exact: set_kf_ok. by [].
have OB : forall j m b (r : res (observation R * kalman R)) s, nth_error (w_ob w) j = Some (m, b) ->
   (exists b' f', r = Ok (b', f') /\ ob_valid c n m b' /\ ob_same_model b b' /\ kf_valid c n f' /\ kf_same_model (w_kf w) f' /\ kf_est n f' = s) ->
   exists w', bind r (fun r => let '(b, f) := r in Ok (set_ob (set_kf w f) j (m, b))) = Ok w' /\ world_ok c n w' /\ ct_dims w' = ct_dims w /\ ob_dims w' = ob_dims w /\
     world_abs n w' = tw_est (world_abs n w) s.
  move=> j m b r s E [b' [f' [-> [V [[mH [mz mR]] [V' [M' Es]]]]]]] /=; exists (set_ob (set_kf w f') j (m, b')).
  have [W1 [D1 D2]] := @set_ob_ok R c n (set_kf w f') j m b b' (set_kf_ok _ _ _ _ Hw V') E V.
  split=> //; split=> //; split=> //; split=> //; rewrite -Es -(abs_set_kf M') /world_abs /=; congr TW.
  by apply: (map_upd_same E); rewrite /obs_abs mH mz mR.
have SC : forall i m k k' (g : tctl R n -> tctl R n), nth_error (w_ct w) i = Some (m, k) -> ct_valid c n m k' -> ctl_abs n (m, k') = g (ctl_abs n (m, k)) ->
   exists w', Ok (set_ct w i (m, k')) = Ok w' /\ world_ok c n w' /\ ct_dims w' = ct_dims w /\ ob_dims w' = ob_dims w /\
     world_abs n w' = TW (tw_A (world_abs n w)) (tw_Q (world_abs n w)) (tw_s (world_abs n w)) (alter g i (tw_ct (world_abs n w))) (tw_ob (world_abs n w)).
  move=> i m k k' g E V Eg; exists (set_ct w i (m, k')); have [W1 [D1 D2]] := set_ct_ok _ _ _ _ _ _ _ Hw E V.
  by do 4 split=> //; rewrite /world_abs /=; congr TW; apply: map_upd_alter E Eg.
have SO : forall i m k k' (g : tobs R n -> tobs R n), nth_error (w_ob w) i = Some (m, k) -> ob_valid c n m k' -> obs_abs n (m, k') = g (obs_abs n (m, k)) ->
   exists w', Ok (set_ob w i (m, k')) = Ok w' /\ world_ok c n w' /\ ct_dims w' = ct_dims w /\ ob_dims w' = ob_dims w /\
     world_abs n w' = TW (tw_A (world_abs n w)) (tw_Q (world_abs n w)) (tw_s (world_abs n w)) (tw_ct (world_abs n w)) (alter g i (tw_ob (world_abs n w))).
  move=> i m k k' g E V Eg; exists (set_ob w i (m, k')); have [W1 [D1 D2]] := set_ob_ok _ _ _ _ _ _ _ Hw E V.
  by do 4 split=> //; rewrite /world_abs /=; congr TW; apply: map_upd_alter E Eg.
have NC : forall i (g : tctl R n -> tctl R n), nth_error (w_ct w) i = None ->
   exists w', Ok w = Ok w' /\ world_ok c n w' /\ ct_dims w' = ct_dims w /\ ob_dims w' = ob_dims w /\
     world_abs n w' = TW (tw_A (world_abs n w)) (tw_Q (world_abs n w)) (tw_s (world_abs n w)) (alter g i (tw_ct (world_abs n w))) (tw_ob (world_abs n w)).
  move=> i g E; exists w; do 4 split=> //; rewrite alter_none //= nth_map_abs E //.
have NO : forall i (g : tobs R n -> tobs R n), nth_error (w_ob w) i = None ->
   exists w', Ok w = Ok w' /\ world_ok c n w' /\ ct_dims w' = ct_dims w /\ ob_dims w' = ob_dims w /\
     world_abs n w' = TW (tw_A (world_abs n w)) (tw_Q (world_abs n w)) (tw_s (world_abs n w)) (tw_ct (world_abs n w)) (alter g i (tw_ob (world_abs n w))).
  move=> i g E; exists w; do 4 split=> //; rewrite alter_none //= nth_map_abs E //.
have [vA [vx [vP [vQ [vpx vtP]]]]] := Vf.
case: o; case: t => //.
- by move=> _ _; apply: KF; apply: predict_exact.
- by move=> lam l /= -> Hl; apply: KF; apply: predict_tuned_exact.
- by move=> F h /= HF _; apply: KF; apply: predict_nonlinear_exact.
- by move=> l F l' h /= [-> HF] Hl; apply: KF; apply: predict_tuned_nonlinear_exact.
- move=> i i' /= -> _; rewrite nth_map_abs; case E: (nth_error (w_ct w) i) => [[m k]|] /=; last by exists w.
  have Vk := Forall_nth _ _ _ _ Vc E.
  have [k' [f' [-> [V [[mB [mu mQ]] [V' [M' [_ Es]]]]]]]] := control_exact Vk Vf.
  have [W1 [D1 D2]] := @set_ct_ok R c n (set_kf w f') i m k k' (set_kf_ok _ _ _ _ Hw V') E V.
  exists (set_ct (set_kf w f') i (m, k')); do 4 split=> //; rewrite -Es -(abs_set_kf M') /world_abs /=; congr TW.
  by apply: (map_upd_same E); rewrite /ctl_abs mB mu mQ.
- move=> j j' /= ->; rewrite nth_map_abs; case E: (nth_error (w_ob w) j) => [[m b]|] /=; last by exists w.
  move=> [Hm HS]; apply: (OB _ _ _ _ _ E).
  have [b' [f' [-> H]]] := correct_exact Hn Hm (Forall_nth _ _ _ _ Vo E) Vf HS.
  by exists b', f'; split=> //; tauto.
- move=> j F j' h /= [-> HF]; rewrite nth_map_abs; case E: (nth_error (w_ob w) j) => [[m b]|] /=; last by exists w.
  rewrite (ob_dims_nth _ _ _ _ E) in HF.
  move=> [Hm HS]; apply: (OB _ _ _ _ _ E).
  have [b' [f' [-> H]]] := correct_nonlinear_exact Hn Hm (Forall_nth _ _ _ _ Vo E) Vf HF HS.
  by exists b', f'; split=> //; tauto.
- move=> M l /= [L ->] _; set f := mk_kalman _ _ _ _ _ _; have [|w' [? [? [? [? E]]]]] := SK f.
    by red; do 5 (split=> //; try exact: put_valid).
  by exists w'; do 4 split=> //; rewrite E /= mx_put.
- move=> M l /= [L ->] _; set f := mk_kalman _ _ _ _ _ _; have [|w' [? [? [? [? E]]]]] := SK f.
    by red; do 5 (split=> //; try exact: put_valid).
  by exists w'; do 4 split=> //; rewrite E /= /kf_est mx_put.
- move=> M l /= [L ->] _; set f := mk_kalman _ _ _ _ _ _; have [|w' [? [? [? [? E]]]]] := SK f.
    by red; do 5 (split=> //; try exact: put_valid).
  by exists w'; do 4 split=> //; rewrite E /= /kf_est /= mx_put.
- move=> M l /= [L ->] _; set f := mk_kalman _ _ _ _ _ _; have [|w' [? [? [? [? E]]]]] := SK f.
    by red; do 5 (split=> //; try exact: put_valid).
  by exists w'; do 4 split=> //; rewrite E /= mx_put.
- move=> i M i' l /= [-> Hd'] _; case E: (nth_error (w_ct w) i) => [[m k]|] /=; last exact: NC.
  rewrite (ct_dims_nth _ _ _ _ E) in Hd'; case: Hd' => L EM; have [vB [vu [vq vt]]] := Forall_nth _ _ _ _ Vc E.
  by apply: (SC _ _ _ _ _ E); [red; do 3 (split=> //; try exact: put_valid)|rewrite /= (mx_put vB L) EM].
- move=> i M i' l /= [-> Hd'] _; case E: (nth_error (w_ct w) i) => [[m k]|] /=; last exact: NC.
  rewrite (ct_dims_nth _ _ _ _ E) in Hd'; case: Hd' => L EM; have [vB [vu [vq vt]]] := Forall_nth _ _ _ _ Vc E.
  by apply: (SC _ _ _ _ _ E); [red; do 3 (split=> //; try exact: put_valid)|rewrite /= (mx_put vu L) EM].
- move=> i M i' l /= [-> Hd'] _; case E: (nth_error (w_ct w) i) => [[m k]|] /=; last exact: NC.
  rewrite (ct_dims_nth _ _ _ _ E) in Hd'; case: Hd' => L EM; have [vB [vu [vq vt]]] := Forall_nth _ _ _ _ Vc E.
  by apply: (SC _ _ _ _ _ E); [red; do 3 (split=> //; try exact: put_valid)|rewrite /= (mx_put vq L) EM].
- move=> i M i' l /= [-> Hd'] _; case E: (nth_error (w_ob w) i) => [[m k]|] /=; last exact: NO.
  rewrite (ob_dims_nth _ _ _ _ E) in Hd'; case: Hd' => L EM; have [vH [vz [vR vt]]] := Forall_nth _ _ _ _ Vo E.
  by apply: (SO _ _ _ _ _ E); [red; do 3 (split=> //; try exact: put_valid)|rewrite /= (mx_put vH L) EM].
- move=> i M i' l /= [-> Hd'] _; case E: (nth_error (w_ob w) i) => [[m k]|] /=; last exact: NO.
  rewrite (ob_dims_nth _ _ _ _ E) in Hd'; case: Hd' => L EM; have [vH [vz [vR vt]]] := Forall_nth _ _ _ _ Vo E.
  by apply: (SO _ _ _ _ _ E); [red; do 3 (split=> //; try exact: put_valid)|rewrite /= (mx_put vz L) EM].
- move=> i M i' l /= [-> Hd'] _; case E: (nth_error (w_ob w) i) => [[m k]|] /=; last exact: NO.
  rewrite (ob_dims_nth _ _ _ _ E) in Hd'; case: Hd' => L EM; have [vH [vz [vR vt]]] := Forall_nth _ _ _ _ Vo E.
  by apply: (SO _ _ _ _ _ E); [red; do 3 (split=> //; try exact: put_valid)|rewrite /= (mx_put vR L) EM].
Qed.

Lemma denotes_dims (w w' : world R) o (t : top R n) : ct_dims w' = ct_dims w -> ob_dims w' = ob_dims w -> denotes c w o t -> denotes c w' o t.
Proof. by move=> E1 E2; rewrite /denotes E1 E2. Qed.

Lemma run_refines (w : world R) os (ts : seq (top R n)) : world_ok c n w -> List.Forall2 (denotes c w) os ts -> ops_ok (world_abs n w) ts ->
  exists w', run c N n w os = Ok w' /\ world_ok c n w' /\ ct_dims w' = ct_dims w /\ ob_dims w' = ob_dims w /\
    world_abs n w' = trun (world_abs n w) ts.
Proof.
elim: os ts w => [|o os IH] ts w Hw H; case: ts H => [|t ts] H; try by inversion H.
  by move=> _; exists w.
move=> [Ho Hs]; have [Hd Hd'] : denotes c w o t /\ List.Forall2 (denotes c w) os ts by inversion H.
have [w1 [E1 [W1 [D1 [D2 A1]]]]] := step_refines Hw Hd Ho.
have F : List.Forall2 (denotes c w1) os ts.
  by elim: Hd' => [|a b l l' Ha _ IHl]; constructor=> //; apply: denotes_dims Ha.
have [|w2 [E2 [W2 [D3 [D4 A2]]]]] := IH ts w1 W1 F; first by rewrite A1.
by exists w2; rewrite /= E1 /= E2 A2 D3 D4 A1 D1 D2.
Qed.
End HistExact.
