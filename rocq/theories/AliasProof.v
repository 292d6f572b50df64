(** * Shared temporaries *)
From Verif Require Import Spec Matrix Filter Extended SpecFilter Wp Kernels Access Chol Inv FilterGen FilterTwo
  History SpecGen HistGen HistTwo Alias SpecAlias BuildSim.
From Coq Require Import Lia.

Section Views.
Context {T : Type}.
Implicit Types (mem l : list T) (r s : region).

Lemma view_length r mem : fst r + snd r <= length mem -> length (view r mem) = snd r.
Proof. intros H. unfold view. rewrite firstn_length, skipn_length. lia. Qed.
Lemma nth_error_firstn' {A} k (l : list A) i : nth_error (firstn k l) i = if i <? k then nth_error l i else None.
Proof.
  revert l i; induction k as [|k IH]; intros [|a l] [|i]; simpl; try reflexivity.
  - destruct (S i <? S k); reflexivity.
  - rewrite IH. reflexivity.
Qed.
Lemma nth_error_skipn' {A} k (l : list A) i : nth_error (skipn k l) i = nth_error l (k + i).
Proof. revert l i; induction k as [|k IH]; intros [|a l] i; simpl; auto. destruct i; reflexivity. Qed.
Lemma view_nth r mem i : nth_error (view r mem) i = if i <? snd r then nth_error mem (fst r + i) else None.
Proof. unfold view. rewrite nth_error_firstn', nth_error_skipn'. reflexivity. Qed.
Lemma put_view_length r mem l : fst r + snd r <= length mem -> length l = snd r -> length (put_view r mem l) = length mem.
Proof. intros H1 H2. unfold put_view. rewrite !app_length, firstn_length, skipn_length. lia. Qed.
Lemma put_view_nth r mem l p : fst r + snd r <= length mem -> length l = snd r ->
  nth_error (put_view r mem l) p = if (fst r <=? p) && (p <? fst r + snd r) then nth_error l (p - fst r) else nth_error mem p.
Proof.
  intros H1 H2. unfold put_view.
  assert (HL : length (firstn (fst r) mem) = fst r) by (rewrite firstn_length; lia).
  destruct (Nat.leb_spec (fst r) p) as [Ha|Ha]; cbn [andb].
  - rewrite nth_error_app2 by lia. rewrite HL. destruct (Nat.ltb_spec p (fst r + snd r)) as [Hb|Hb].
    + rewrite nth_error_app1 by lia. reflexivity.
    + rewrite nth_error_app2 by lia. rewrite nth_error_skipn'. f_equal. lia.
  - rewrite nth_error_app1 by lia. rewrite nth_error_firstn'. destruct (Nat.ltb_spec p (fst r)); [reflexivity|lia].
Qed.
Lemma view_put_same r mem l : fst r + snd r <= length mem -> length l = snd r -> view r (put_view r mem l) = l.
Proof.
  intros H1 H2. apply list_ext. intros i. rewrite view_nth, put_view_nth by auto.
  destruct (Nat.ltb_spec i (snd r)) as [Hi|Hi].
  - destruct (Nat.leb_spec (fst r) (fst r + i)); [|lia]. destruct (Nat.ltb_spec (fst r + i) (fst r + snd r)); [|lia].
    cbn [andb]. f_equal. lia.
  - symmetry. apply nth_error_None. lia.
Qed.
Lemma view_put_apart r s mem l : apart r s -> fst r + snd r <= length mem -> length l = snd r -> view s (put_view r mem l) = view s mem.
Proof.
  intros Ha H1 H2. apply list_ext. intros i. rewrite !view_nth. destruct (Nat.ltb_spec i (snd s)) as [Hi|Hi]; [|reflexivity].
  rewrite put_view_nth by auto. destruct (Nat.leb_spec (fst r) (fst s + i)); cbn [andb]; [|reflexivity].
  destruct (Nat.ltb_spec (fst s + i) (fst r + snd r)); [|reflexivity]. destruct Ha; lia.
Qed.
Lemma put_view_self r mem : fst r + snd r <= length mem -> put_view r mem (view r mem) = mem.
Proof.
  intros H. apply list_ext. intros p. rewrite put_view_nth by (auto using view_length).
  destruct (Nat.leb_spec (fst r) p); cbn [andb]; [|reflexivity].
  destruct (Nat.ltb_spec p (fst r + snd r)); [|reflexivity]. rewrite view_nth.
  destruct (Nat.ltb_spec (p - fst r) (snd r)); [|lia]. f_equal. lia.
Qed.
Lemma rdv_view r mem i : rdv r mem i = rd (view r mem) i.
Proof. unfold rdv, rd. rewrite view_nth. destruct (i <? snd r); reflexivity. Qed.
Lemma wrv_put r mem l i v : fst r + snd r <= length mem -> length l = snd r ->
  wrv r (put_view r mem l) i v = bind (wr l i v) (fun l' => Ok (put_view r mem l')).
Proof.
  intros H1 H2. unfold wrv, wr. rewrite H2, put_view_length by auto.
  destruct (Nat.ltb_spec i (snd r)) as [Hi|Hi]; [|reflexivity].
  destruct (Nat.ltb_spec (fst r + i) (length mem)) as [Hj|Hj]; [|lia]. cbn [bind]. f_equal.
  apply list_ext. intros p. rewrite nth_error_upd, put_view_length by auto.
  rewrite !put_view_nth by (rewrite ?length_upd; auto). rewrite nth_error_upd.
  destruct (Nat.ltb_spec (fst r + i) (length mem)); [|lia]. destruct (Nat.ltb_spec i (length l)); [|lia].
  destruct (Nat.leb_spec (fst r) p); cbn [andb].
  - destruct (Nat.ltb_spec p (fst r + snd r)).
    + destruct (Nat.eqb_spec p (fst r + i)), (Nat.eqb_spec (p - fst r) i); try lia; reflexivity.
    + destruct (Nat.eqb_spec p (fst r + i)); [lia|reflexivity].
  - destruct (Nat.eqb_spec p (fst r + i)); [lia|reflexivity].
Qed.
Lemma apart_sym r s : apart r s -> apart s r.
Proof. unfold apart. tauto. Qed.
End Views.

Section Shared.
Context {T : Type} (c : cfg) (N : num T).
Implicit Types (mem l : list T) (r : region).

(** with separate regions the access-by-access product is the product of the slices *)
Lemma mult_shared_apart M K U (a mem : list T) rb rc : apart rb rc -> fst rc + snd rc <= length mem ->
  mult_shared c N M K U a rb rc mem =
  bind (mult c N M K U a (view rb mem) (view rc mem)) (fun l => Ok (put_view rc mem l)).
Proof.
  intros Ha Hf. unfold mult_shared, mult.
  rewrite <- (put_view_self rc mem) at 1 by exact Hf.
  apply (for_down_sim (fun _ l => put_view rc mem l) U (view rc mem) _ _ (fun _ l => length l = snd rc)); [apply view_length; auto|].
  intros j l Hj HL.
  assert (HB : forall i (s : nat * list T), length (snd s) = snd rc ->
    wp (s0 <- for_range 0 K (fst s, n_zero N) (fun k s0 => let '(index_a, total) := s0 in
          av <- rd a index_a ;; kb <- umul c k U ;; kb <- uadd c kb j ;; bv <- rd (view rb mem) kb ;;
          p <- n_mul N av bv ;; total <- n_add N total p ;; index_a <- uadd c index_a 1 ;; Ok (index_a, total)) ;;
        let '(index_a, total) := s0 in
        ic <- umul c i U ;; ic <- uadd c ic j ;; cdata <- wr (snd s) ic total ;; Ok (index_a, cdata))
      (fun s' => length (snd s') = snd rc) (fun _ => True)).
  { intros i s Hs. match goal with |- wp (bind ?m _) _ _ => destruct m as [[ia tot]|] end; cbn [bind wp]; [|exact I].
    destruct (umul c i U) as [q|]; cbn [bind wp]; [|exact I]. destruct (uadd c q j) as [q'|]; cbn [bind wp]; [|exact I].
    unfold wr. destruct (q' <? length (snd s)); cbn [bind wp]; [|exact I]. cbn [snd]. rewrite length_upd. exact Hs. }
  split.
  - rewrite !bind_assoc.
    change (0, put_view rc mem l) with ((fun _ (s : nat * list T) => (fst s, put_view rc mem (snd s))) 0 (0, l)).
    rewrite (for_range_sim (fun _ (s : nat * list T) => (fst s, put_view rc mem (snd s))) 0 M (0, l) _
      (fun i s => let '(index_a, cdata) := s in
        s <- for_range 0 K (index_a, n_zero N) (fun k s => let '(index_a, total) := s in
          av <- rd a index_a ;; kb <- umul c k U ;; kb <- uadd c kb j ;; bv <- rd (view rb mem) kb ;;
          p <- n_mul N av bv ;; total <- n_add N total p ;; index_a <- uadd c index_a 1 ;; Ok (index_a, total)) ;;
        let '(index_a, total) := s in
        ic <- umul c i U ;; ic <- uadd c ic j ;; cdata <- wr cdata ic total ;; Ok (index_a, cdata))
      (fun _ s => length (snd s) = snd rc)); [|lia|exact HL|].
    + rewrite !bind_assoc. apply bind_ext. intros [ia l'] _. reflexivity.
    + intros i [ia l'] Hi Hl'. cbn [snd] in Hl'. split; [|exact (HB i (ia, l') Hl')]. cbn [fst snd].
      rewrite (for_range_ext 0 K (ia, n_zero N) _ (fun k s0 => let '(index_a, total) := s0 in
          av <- rd a index_a ;; kb <- umul c k U ;; kb <- uadd c kb j ;; bv <- rd (view rb mem) kb ;;
          p <- n_mul N av bv ;; total <- n_add N total p ;; index_a <- uadd c index_a 1 ;; Ok (index_a, total)) (fun _ _ => True)); [|lia|exact I|].
      * rewrite bind_assoc. apply bind_ext. intros [ib tot] _.
        destruct (umul c i U) as [q|]; cbn [bind]; [|reflexivity]. destruct (uadd c q j) as [q'|]; cbn [bind]; [|reflexivity].
        rewrite wrv_put by auto. rewrite !bind_assoc. reflexivity.
      * intros k [ib tot] Hk _. split; [|match goal with |- wp ?m _ _ => destruct m; exact I end].
        apply bind_ext. intros av _. apply bind_ext. intros q _. apply bind_ext. intros q' _.
        rewrite rdv_view, view_put_apart by (auto using apart_sym). reflexivity.
  - apply wp_bind. eapply wp_mono.
    + apply (wp_for_range 0 M (0, l) _ (fun _ s => length (snd s) = snd rc) (fun _ => True)); [lia|exact HL|].
      intros i [ia l'] Hi Hl'. exact (HB i (ia, l') Hl').
    + intros [ia l'] Hl'. exact Hl'.
    + auto.
Qed.

Lemma view_valid M K (mem : list T) r : slice_ok c mem -> fits (length mem) (M * K) r -> valid c M K (view r mem).
Proof.
  intros Hs [H1 H2]. split; [rewrite view_length; lia|]. unfold slice_ok in *. rewrite view_length by lia. lia.
Qed.
End Shared.

Section SharedTwo.
Context {T : Type} (c : cfg) (N : num T).

Lemma wp_len R C (m : res (list T)) (old l : list T) : wp m (okm c R C old) (arith_only N) -> m = Ok l -> length l = length old.
Proof. intros H ->. cbn [wp] in H. apply H. Qed.

(** a kernel of the shared run, whose output is the region [r], against its counterpart *)
Lemma shared_bind {A B} R C (r : region) (mem old' : list T) m1 m2 (k1 : list T -> res A) (k2 : list T -> res B) Rel :
  slice_ok c mem -> fits (length mem) (R * C) r ->
  wp m1 (okm c R C (view r mem)) (arith_only N) ->
  rres (mrel c R C) m1 m2 ->
  (forall l l', mrel c R C l l' -> length l = snd r -> length (put_view r mem l) = length mem ->
     slice_ok c (put_view r mem l) -> view r (put_view r mem l) = l -> (forall s, apart r s -> view s (put_view r mem l) = view s mem) ->
     rres Rel (k1 l) (k2 l')) ->
  rres Rel (bind m1 k1) (bind m2 k2).
Proof.
  intros Hs [Hf Hl] Hw Hr Hk. eapply rres_bind; [exact Hr|]. intros l l' V E _.
  assert (HL : length l = snd r) by (rewrite (wp_len R C m1 (view r mem) l Hw E); apply view_length; auto).
  assert (HM : length (put_view r mem l) = length mem) by (apply put_view_length; auto).
  apply Hk; auto.
  - unfold slice_ok in *. rewrite HM. exact Hs.
  - apply view_put_same; auto.
  - intros s Ha. apply view_put_apart; auto.
Qed.

Ltac step2 L := eapply rres_bind; [apply L; eauto using mk_mrel|];
  let l := fresh "l" in let l' := fresh "l'" in let V := fresh "V" in intros l l' V _ _;
  let V1 := fresh "V" in let V2 := fresh "V" in let V3 := fresh "V" in pose proof V as (V1 & V2 & V3).
Ltac fin := repeat match goal with |- _ /\ _ => split end; auto.

Lemma fits_len a b len r : fits a len r -> b = a -> fits b len r.
Proof. intros H ->; exact H. Qed.

Definition shared_res n m (mem : list T) (r1 : observation T * list T * list T * list T) (r2 : observation T * list T * list T) : Prop :=
  let '(o1', x1', P1', mem') := r1 in let '(o2', x2', P2') := r2 in
  ob_rel c n m o1' o2' /\ mrel c n 1 x1' x2' /\ mrel c n n P1' P2' /\
  same_matrix n m (ob_K o1') (ob_K o2') /\ same_matrix m 1 (ob_y o1') (ob_y o2') /\ length mem' = length mem.

Lemma update_shared_two n m L o1 o2 x1 x2 P1 P2 mem : 1 <= n -> 1 <= m -> slice_ok c mem -> obs_layout_ok (length mem) n m L ->
  ob_rel c n m o1 o2 -> same_matrix m 1 (ob_y o1) (ob_y o2) -> mrel c n 1 x1 x2 -> mrel c n n P1 P2 ->
  rres (shared_res n m mem) (update_shared c N n m L o1 x1 P1 mem) (update_with_innovation c N n m o2 x2 P2).
Proof.
  intros Hn Hm Hs (FS & FHP & FPHt & FKHP & AS & AH)
    ((vH & vz & vR & vy & vS & vK & vSi & vHP & vPHt & vKHP) &
    (vH' & vz' & vR' & vy' & vS' & vK' & vSi' & vHP' & vPHt' & vKHP') & (sH & sz & sR)) Hy Hx HP.
  unfold update_shared, update_with_innovation. pose proof HP as (vP1 & vP2 & _).
  eapply (shared_bind m n (r_HP L) mem []); [exact Hs|exact FHP| | |].
  { apply mult_wp; auto. apply view_valid; auto. }
  { apply mult_two; eauto using mk_mrel. apply view_valid; auto. }
  intros HP1 HP2 VHP LHP LM1 SM1 VW1 _. set (mem1 := put_view (r_HP L) mem HP1) in *. rewrite VW1. pose proof VHP as (?&?&?).
  step2 (@mult_transb_two T). step2 (@add_inplace_a_two T).
  eapply rres_bind; [apply cholesky_two; auto|]. intros [fl1 S1] [fl2 S2] [_ VS] _ _. cbn [snd] in VS. pose proof VS as (?&?&?).
  assert (FS1 : fits (length mem1) (m * m) (r_Sinv L)) by (rewrite LM1; exact FS).
  eapply (shared_bind m m (r_Sinv L) mem1 []); [exact SM1|exact FS1| | |].
  { apply invert_wp; auto. apply view_valid; auto. }
  { apply invert_two; auto. apply view_valid; auto. }
  intros Si1 Si2 VSi LSi LM2 SM2 VW2 VA2. set (mem2 := put_view (r_Sinv L) mem1 Si1) in *. pose proof VSi as (?&?&?).
  assert (FPHt2 : fits (length mem2) (n * m) (r_PHt L)) by (rewrite LM2, LM1; exact FPHt).
  eapply (shared_bind n m (r_PHt L) mem2 []); [exact SM2|exact FPHt2| | |].
  { apply mult_transb_wp; auto. apply view_valid; auto. }
  { apply mult_transb_two; eauto using mk_mrel. apply view_valid; auto. }
  intros PH1 PH2 VPH LPH LM3 SM3 VW3 VA3. set (mem3 := put_view (r_PHt L) mem2 PH1) in *. rewrite VW3, (VA3 (r_Sinv L)), VW2 by (apply apart_sym; auto).
  pose proof VPH as (?&?&?).
  step2 (@mult_two T). step2 (@multadd_rowvector_two T).
  assert (FHP3 : fits (length mem3) (m * n) (r_HP L)) by (rewrite LM3, LM2, LM1; exact FHP).
  eapply (shared_bind m n (r_HP L) mem3 []); [exact SM3|exact FHP3| | |].
  { apply mult_wp; auto. apply view_valid; auto. }
  { apply mult_two; eauto using mk_mrel. apply view_valid; auto. }
  intros HP3 HP4 VHP4 LHP4 LM4 SM4 VW4 _. set (mem4 := put_view (r_HP L) mem3 HP3) in *. pose proof VHP4 as (?&?&?).
  assert (FKHP4 : fits (length mem4) (n * n) (r_KHP L)) by (rewrite LM4, LM3, LM2, LM1; exact FKHP).
  rewrite mult_shared_apart by (auto; apply FKHP4). rewrite VW4. rewrite bind_assoc. 
  eapply (shared_bind n n (r_KHP L) mem4 []); [exact SM4|exact FKHP4| | |].
  { apply mult_wp; auto. apply view_valid; auto. }
  { apply mult_two; eauto using mk_mrel. apply view_valid; auto. }
  intros KH1 KH2 VKH LKH LM5 SM5 VW5 _. cbn [bind]. rewrite VW5. pose proof VKH as (?&?&?).
  step2 (@sub_inplace_a_two T). cbn [rres shared_res].
  unfold ob_rel, ob_valid, ob_same; cbn. fin. congruence.
Qed.

Definition shared_cor n m (mem : list T) (r1 : observation T * kalman T * list T) (r2 : observation T * kalman T) : Prop :=
  let '(o1', f1', mem') := r1 in let '(o2', f2') := r2 in
  ob_rel c n m o1' o2' /\ kf_rel c n f1' f2' /\
  same_matrix n m (ob_K o1') (ob_K o2') /\ same_matrix m 1 (ob_y o1') (ob_y o2') /\ length mem' = length mem.

Ltac open_kf H := destruct H as ((?vA & ?vx & ?vP & ?vQ & ?vpx & ?vtP) & (?vA & ?vx & ?vP & ?vQ & ?vpx & ?vtP) & (?sA & ?sx & ?sP & ?sQ)).

Lemma set_y_rel n m (o1 o2 : observation T) y1 y2 : ob_rel c n m o1 o2 -> valid c m 1 y1 -> valid c m 1 y2 -> ob_rel c n m (set_y o1 y1) (set_y o2 y2).
Proof. intros (H1 & H2 & H3) V1 V2. split; [|split; [|exact H3]]; apply set_y_valid; auto. Qed.

Lemma correct_shared_two n m L o1 o2 (f g : kalman T) mem : 1 <= n -> 1 <= m -> slice_ok c mem -> obs_layout_ok (length mem) n m L ->
  ob_rel c n m o1 o2 -> kf_rel c n f g ->
  rres (shared_cor n m mem) (correct_shared c N n m L o1 f mem) (correct c N n m o2 g).
Proof.
  intros Hn Hm Hs HL Ho H. open_kf H. pose proof Ho as ((vH & vz & vR & vy & _) & (vH' & vz' & vR' & vy' & _) & (sH & sz & sR)).
  unfold correct_shared, correct, obs_correct. rewrite bind_assoc. step2 (@mult_rowvector_two T). rewrite bind_assoc. step2 (@sub_inplace_b_two T).
  eapply rres_bind; [apply update_shared_two; eauto using mk_mrel, set_y_rel|].
  intros [[[k1' x1'] P1'] mem'] [[k2' x2'] P2'] (H1 & (?&?&?) & (?&?&?) & ? & ? & ?) _ _. cbn [rres shared_cor]. fin.
  unfold kf_rel, kf_valid, kf_same; cbn. fin.
Qed.
Lemma correct_nl_shared_two n m h1 h2 L o1 o2 (f g : kalman T) mem : 1 <= n -> 1 <= m -> closure_two c m n h1 h2 ->
  slice_ok c mem -> obs_layout_ok (length mem) n m L -> ob_rel c n m o1 o2 -> kf_rel c n f g ->
  rres (shared_cor n m mem) (correct_nonlinear_shared c N n m h1 L o1 f mem) (correct_nonlinear c N n m h2 o2 g).
Proof.
  intros Hn Hm Hh Hs HL Ho H. open_kf H. pose proof Ho as ((vH & vz & vR & vy & _) & (vH' & vz' & vR' & vy' & _) & (sH & sz & sR)).
  unfold correct_nonlinear_shared, correct_nonlinear, obs_correct_nonlinear. rewrite bind_assoc. step2 Hh. rewrite bind_assoc. step2 (@sub_inplace_b_two T).
  eapply rres_bind; [apply update_shared_two; eauto using mk_mrel, set_y_rel|].
  intros [[[k1' x1'] P1'] mem'] [[k2' x2'] P2'] (H1 & (?&?&?) & (?&?&?) & ? & ? & ?) _ _. cbn [rres shared_cor]. fin.
  unfold kf_rel, kf_valid, kf_same; cbn. fin.
Qed.

Ltac inv_ok H := repeat match type of H with
  | bind ?m _ = Ok _ => let E := fresh "E" in destruct m eqn:E; cbn [bind] in H; [|discriminate H]
  end.
Lemma predict_P_tlen n (f f' : kalman T) : kf_valid c n f -> predict_P c N n f = Ok f' -> length (kf_tP f') = length (kf_tP f).
Proof.
  intros (vA & vx & vP & vQ & vpx & vtP) H. unfold predict_P in H. inv_ok H. injection H as <-. cbn.
  eapply wp_len; [|exact E]. apply mult_wp; auto.
Qed.
Lemma predict_P_tuned_tlen n lam (f f' : kalman T) : kf_valid c n f -> predict_P_tuned c N n lam f = Ok f' -> length (kf_tP f') = length (kf_tP f).
Proof.
  intros (vA & vx & vP & vQ & vpx & vtP) H. unfold predict_P_tuned in H. inv_ok H. injection H as <-. cbn.
  eapply wp_len; [|exact E1]. apply mult_wp; auto.
Qed.
Lemma kf_valid_x n (f : kalman T) x px : kf_valid c n f -> valid c n 1 x -> valid c n 1 px ->
  kf_valid c n (mk_kalman (kf_A f) x (kf_P f) (kf_Q f) px (kf_tP f)).
Proof. unfold kf_valid. cbn. tauto. Qed.
Lemma predict_x_ok n (f f' : kalman T) : 1 <= n -> kf_valid c n f -> predict_x c N n f = Ok f' -> kf_valid c n f' /\ kf_tP f' = kf_tP f.
Proof.
  intros Hn Hf H. pose proof (predict_x_wp c N n f Hn Hf) as W. rewrite H in W. cbn [wp] in W. split; [apply W|].
  unfold predict_x in H. inv_ok H. injection H as <-. reflexivity.
Qed.

Definition is_predict (o : op T) : bool :=
  match o with OPredict | OPredictTuned _ | OPredictNonlinear _ | OPredictTunedNonlinear _ _ => true | _ => false end.

Lemma closure_two_valid m n h1 h2 (x o : list T) o' : closure_two c m n h1 h2 -> valid c n 1 x -> valid c m 1 o -> h1 x o = Ok o' -> valid c m 1 o'.
Proof.
  intros Hh Vx Vo E. specialize (Hh x x o o (mrel_refl c n 1 x Vx) Vo Vo). rewrite E in Hh.
  destruct (h2 x o); cbn [rres] in Hh; [apply Hh|contradiction].
Qed.
Lemma predict_xnl_ok n h1 h2 (f f' : kalman T) : 1 <= n -> closure_two c n n h1 h2 -> kf_valid c n f -> predict_x_nonlinear c n h1 f = Ok f' -> kf_valid c n f' /\ kf_tP f' = kf_tP f.
Proof.
  intros Hn Hh Hf H. pose proof Hf as (vA & vx & vP & vQ & vpx & vtP). unfold predict_x_nonlinear in H. inv_ok H. injection H as <-.
  split; [|reflexivity]. apply kf_valid_x; auto.
  - pose proof (copy_to_wp c N n 1 a (kf_x f) Hn (le_n 1)) as W. rewrite E0 in W. cbn [wp] in W.
    apply W; auto. eapply closure_two_valid; [exact Hh|exact vx|exact vpx|exact E].
  - eapply closure_two_valid; [exact Hh|exact vx|exact vpx|exact E].
Qed.

Lemma step_tlen n (w w' : world T) dims o o2 : 1 <= n -> is_predict o = true -> op_same c n dims o o2 -> kf_valid c n (w_kf w) -> step c N n w o = Ok w' ->
  length (kf_tP (w_kf w')) = length (kf_tP (w_kf w)).
Proof.
  intros Hn Ho Hs Hf H. destruct o; try discriminate Ho; destruct o2; cbn [op_same] in Hs; try contradiction; try discriminate Hs;
    cbn [step] in H; unfold predict, predict_tuned, predict_nonlinear, predict_tuned_nonlinear in H; inv_ok H;
    injection H as <-; cbn [set_kf w_kf]; inv_ok E.
  - destruct (predict_x_ok n _ _ Hn Hf E0) as [V <-]. eapply predict_P_tlen; eauto.
  - destruct (predict_x_ok n _ _ Hn Hf E0) as [V <-]. eapply predict_P_tuned_tlen; eauto.
  - destruct (predict_xnl_ok n _ _ _ _ Hn Hs Hf E0) as [V <-]. eapply predict_P_tlen; eauto.
  - destruct Hs as [_ Hs]. destruct (predict_xnl_ok n _ _ _ _ Hn Hs Hf E0) as [V <-]. eapply predict_P_tuned_tlen; eauto.
Qed.
Lemma control_blen n m k (f : kalman T) k' f' : ct_valid c n m k -> kf_valid c n f -> control_ c N n m k f = Ok (k', f') -> length (ct_BQ k') = length (ct_BQ k).
Proof.
  intros (vB & vu & vQ & vBQ) _ H. unfold control_ in H. inv_ok H. destruct a as [[k1 x1] P1]. injection H as <- <-.
  unfold apply_control in E. inv_ok E. destruct a0.
  - injection E as <- <- <-. reflexivity.
  - inv_ok E. injection E as <- <- <-. cbn. eapply wp_len; [|exact E3]. apply mult_wp; auto.
Qed.

Definition shared_state n (total : nat) (s : world T * list T) (w : world T) : Prop :=
  world_rel c n (fst s) w /\ length (snd s) = total.

Lemma step_shared_two n L total (w1 w2 : world T) mem o1 o2 : 1 <= n -> Forall (fun m => 1 <= m) (ob_dims w1) -> world_rel c n w1 w2 ->
  slice_ok c mem -> length mem = total -> layout_ok total n (ct_dims w1) (ob_dims w1) L ->
  op_same c n (ob_dims w1) o1 o2 ->
  rres (shared_state n total) (step_shared c N n L (w1, mem) o1) (step c N n w2 o2).
Proof.
  intros Hn Hd Hw Hs Ht (LP & LB & LO) Ho. subst total.
  assert (Hset : rres (shared_state n (length mem)) (w <- step c N n w1 o1 ;; Ok (w, mem)) (step c N n w2 o2)).
  { rewrite <- (bind_ret (step c N n w2 o2)). eapply rres_bind; [apply step_two; eauto|]. intros a b Hab _ _. cbn [rres]. split; [exact Hab|reflexivity]. }
  assert (Hpred : is_predict o1 = true -> rres (shared_state n (length mem)) 
     (let f := w_kf w1 in w <- step c N n (set_kf w1 (mk_kalman (kf_A f) (kf_x f) (kf_P f) (kf_Q f) (kf_px f) (view (l_P L) mem))) o1 ;;
      Ok (w, put_view (l_P L) mem (kf_tP (w_kf w)))) (step c N n w2 o2)).
  { intros Hp. cbv zeta. rewrite <- (bind_ret (step c N n w2 o2)).
    assert (Vv : valid c n n (view (l_P L) mem)) by (apply view_valid; auto).
    set (w0 := set_kf w1 _).
    assert (Hw0 : world_rel c n w0 w2).
    { destruct Hw as (H1 & H2 & H3). split; [|auto]. cbn. open_kf H1. unfold kf_rel, kf_valid, kf_same; cbn. fin. }
    eapply rres_bind; [apply step_two; [exact Hn|exact Hd|exact Hw0|exact Ho]|].
    intros a b Hab Ea _. cbn [rres]. split; [exact Hab|]. cbn [snd]. apply put_view_length; [apply LP|].
    rewrite (step_tlen n w0 a _ o1 o2 Hn Hp Ho) by (auto; apply Hw0). cbn. apply view_length. apply LP. }
  assert (Hob : forall j, match nth_error (w_ob w1) j, nth_error (w_ob w2) j with
     | Some (m1, k1), Some (m2, k2) => m1 = m2 /\ ob_rel c n m1 k1 k2 /\ 1 <= m1 /\ obs_layout_ok (length mem) n m1 (l_ob L j)
     | None, None => True | _, _ => False end).
  { intros j. pose proof (rel_ob_nth c n w1 w2 j Hw) as Hj. destruct (nth_error (w_ob w1) j) as [[m1 k1]|] eqn:E1, (nth_error (w_ob w2) j) as [[m2 k2]|] eqn:E2; auto.
    destruct Hj as [-> Hj]. split; [reflexivity|]. split; [exact Hj|].
    assert (E : nth_error (ob_dims w1) j = Some m2) by (unfold ob_dims; rewrite (map_nth_error _ _ _ E1); reflexivity).
    split; [|apply LO; exact E]. exact (proj1 (Forall_forall _ _) Hd m2 (nth_error_In _ _ E)). }
  pose proof Hw as (Hf & _ & _).
  destruct o1 as [|lam|h|lam h|i|j|j h|l|l|l|l|i l|i l|i l|j l|j l|j l]; try (apply Hset); try (apply Hpred; reflexivity).
  - destruct o2; cbn [op_same] in Ho; try discriminate Ho. injection Ho as <-. cbn [step_shared step].
    pose proof (rel_ct_nth c n w1 w2 i Hw) as Hi.
    destruct (nth_error (w_ct w1) i) as [[m1 k1]|] eqn:E1, (nth_error (w_ct w2) i) as [[m2 k2]|] eqn:E2; try contradiction; [|cbn [rres]; split; auto].
    destruct Hi as [-> Hk].
    assert (FB : fits (length mem) (n * m2) (l_BQ L i)) by (apply LB; unfold ct_dims; rewrite (map_nth_error _ _ _ E1); reflexivity).
    assert (Vv : valid c n m2 (view (l_BQ L i) mem)) by (apply view_valid; auto).
    assert (Hk0 : ct_rel c n m2 (mk_ctl (ct_B k1) (ct_u k1) (ct_Q k1) (view (l_BQ L i) mem)) k2).
    { destruct Hk as ((?&?&?&?) & H2 & H3). split; [|split; [exact H2|exact H3]]. red; cbn; auto. }
    eapply rres_bind; [apply control_two; [exact Hk0|exact Hf]|]. intros [k1' f1'] [k2' f2'] [R1 R2] Ea _. cbn [rres fst snd] in *.
    split; [apply rel_set_ct; [apply rel_set_kf; auto|exact R1]|]. cbn [snd]. apply put_view_length; [apply FB|].
    rewrite (control_blen n m2 _ _ _ _ (proj1 Hk0) (proj1 Hf) Ea). cbn. apply view_length, FB.
  - destruct o2; cbn [op_same] in Ho; try discriminate Ho. injection Ho as <-. cbn [step_shared step]. specialize (Hob j).
    destruct (nth_error (w_ob w1) j) as [[m1 k1]|], (nth_error (w_ob w2) j) as [[m2 k2]|]; try contradiction; [|cbn [rres]; split; auto].
    destruct Hob as (-> & Hj & Hm & HL). eapply rres_bind; [apply correct_shared_two; auto|].
    intros [[b1 f1] mem'] [b2 f2] (R1 & R2 & _ & _ & R3) _ _. cbn [rres]. split; [|exact R3]. apply rel_set_ob; [apply rel_set_kf; auto|exact R1].
  - destruct o2; cbn [op_same] in Ho; try contradiction. destruct Ho as [<- Ho]. cbn [step_shared step]. specialize (Hob j).
    destruct (nth_error (w_ob w1) j) as [[m1 k1]|] eqn:E1, (nth_error (w_ob w2) j) as [[m2 k2]|]; try contradiction; [|cbn [rres]; split; auto].
    assert (E : nth_error (ob_dims w1) j = Some m1) by (unfold ob_dims; rewrite (map_nth_error _ _ _ E1); reflexivity). rewrite E in Ho.
    destruct Hob as (-> & Hj & Hm & HL). eapply rres_bind; [apply correct_nl_shared_two; auto|].
    intros [[b1 f1] mem'] [b2 f2] (R1 & R2 & _ & _ & R3) _ _. cbn [rres]. split; [|exact R3]. apply rel_set_ob; [apply rel_set_kf; auto|exact R1].
Qed.

Lemma rel_dims n (w1 w2 : world T) : world_rel c n w1 w2 -> ct_dims w1 = ct_dims w2 /\ ob_dims w1 = ob_dims w2.
Proof.
  intros (_ & H2 & H3). unfold ct_dims, ob_dims. split.
  - induction H2 as [|a b la lb [H _] _ IH]; cbn; [reflexivity|]. rewrite H, IH. reflexivity.
  - induction H3 as [|a b la lb [H _] _ IH]; cbn; [reflexivity|]. rewrite H, IH. reflexivity.
Qed.

Lemma run_shared_two n L total os1 : forall os2 (w1 w2 : world T) mem, 1 <= n -> Forall (fun m => 1 <= m) (ob_dims w1) -> world_rel c n w1 w2 ->
  slice_ok c mem -> length mem = total -> layout_ok total n (ct_dims w1) (ob_dims w1) L ->
  Forall2 (op_same c n (ob_dims w1)) os1 os2 ->
  rres (shared_state n total) (run_shared c N n L (w1, mem) os1) (run c N n w2 os2).
Proof.
  induction os1 as [|o1 os1 IH]; intros os2 w1 w2 mem Hn Hd Hw Hs Ht HL Ho; inversion Ho as [|? o2 ? os2' Ho1 Ho2]; subst; cbn [run_shared run].
  - cbn [rres]. split; auto.
  - eapply rres_bind; [apply step_shared_two; eauto|]. intros [w1' mem'] w2' [Hw' Hm'] _ E2. cbn [fst snd] in *.
    destruct (rel_dims n _ _ Hw) as [C1 C2]. destruct (rel_dims n _ _ Hw') as [C3 C4].
    destruct (step_dims c N n w2 o2 w2' E2) as [D1 D2].
    assert (Ec : ct_dims w1' = ct_dims w1) by congruence. assert (Eo : ob_dims w1' = ob_dims w1) by congruence.
    apply IH; auto; rewrite ?Ec, ?Eo; auto. unfold slice_ok in *. rewrite Hm'. exact Hs.
Qed.
End SharedTwo.
