(** * Calls that panic: what they leave behind

    A panic unwinds out of the call; a program that catches it ([std::panic::catch_unwind], or a task boundary) goes on with the buffers as they were at that moment.
    Filter.v and Extended.v forget them.  This file models the same functions again, statement by statement, keeping the buffers at the point of the panic.
    CrashErase.v proves that forgetting them gives back the model of Filter.v and Extended.v. *)
From Verif Require Export Filter Extended History.

(** a call returned, or unwound with a panic; in both cases the memory it could write to *)
Inductive cr (S : Type) : Type :=
| Returned (s : S)
| Unwound (s : S) (p : panic).
Arguments Returned {S} s.
Arguments Unwound {S} s p.

(** a computation that writes nothing, with the memory s *)
Definition calc {A S} (s : S) (m : res A) (k : A -> cr S) : cr S := match m with Ok a => k a | Panic p => Unwound s p end.
(** a computation whose only write is its last action *)
Definition lastly {S} (s : S) (m : res S) : cr S := calc s m (@Returned S).
(** a call that writes to a part of the memory; [put b] is the memory with b in that part *)
Definition within {B S} (put : B -> S) (m : cr B) (k : B -> cr S) : cr S := match m with Returned b => k b | Unwound b p => Unwound (put b) p end.
(** forgetting local variables *)
Definition cmap {B S} (g : B -> S) (m : cr B) : cr S := match m with Returned b => Returned (g b) | Unwound b p => Unwound (g b) p end.
(** loops *)
Fixpoint cfor_up {S} (cnt lo : nat) (s : S) (body : nat -> S -> cr S) : cr S :=
  match cnt with 0 => Returned s | Datatypes.S cnt' => within (fun s => s) (body lo s) (fun s' => cfor_up cnt' (Datatypes.S lo) s' body) end.
Definition cfor_range {S} (lo hi : nat) (s : S) (body : nat -> S -> cr S) : cr S := cfor_up (hi - lo) lo s body.
Fixpoint cfor_down {S} (n : nat) (s : S) (body : nat -> S -> cr S) : cr S :=
  match n with 0 => Returned s | Datatypes.S n' => within (fun s => s) (body n' s) (fun s' => cfor_down n' s' body) end.
(** loops with an early return; [mem] is the memory, [ctl] what the loop does next *)
Fixpoint cfor_up_ret {S R} (cnt lo : nat) (s : S) (body : nat -> S -> cr (ctl S R)) : cr (ctl S R) :=
  match cnt with
  | 0 => Returned (Next s)
  | Datatypes.S cnt' => within (fun s => s) (body lo s) (fun o => match o with Next s' => cfor_up_ret cnt' (Datatypes.S lo) s' body | Return r => Returned (Return r) end)
  end.
Definition cfor_range_ret {S R} (lo hi : nat) (s : S) (body : nat -> S -> cr (ctl S R)) : cr (ctl S R) := cfor_up_ret (hi - lo) lo s body.

Section Crash.
Context {T : Type} (c : cfg) (N : num T).

(** traits.rs:138-157 [copy_to] *)
Definition copy_to_cr (ROWS COLS : nat) (a target : list T) : cr (list T) :=
  calc target (count <- m_len c ROWS COLS ;; usub c count 1) (fun last =>
  cfor_down (S last) target (fun index bdata => lastly bdata (v <- rd a index ;; wr bdata index v))).

(** traits.rs:296-334 [mult] *)
Definition mult_cr (ROWS COLS U : nat) (a b cm : list T) : cr (list T) :=
  cfor_down U cm (fun j cdata =>
    cmap snd (cfor_range 0 ROWS (0, cdata) (fun i s => lastly s (let '(index_a, cdata) := s in
      s <- for_range 0 COLS (index_a, n_zero N) (fun k s => let '(index_a, total) := s in
        av <- rd a index_a ;;
        kb <- umul c k U ;;
        kb <- uadd c kb j ;;
        bv <- rd b kb ;;
        p <- n_mul N av bv ;;
        total <- n_add N total p ;;
        index_a <- uadd c index_a 1 ;;
        Ok (index_a, total)) ;;
      let '(index_a, total) := s in
      ic <- umul c i U ;;
      ic <- uadd c ic j ;;
      cdata <- wr cdata ic total ;;
      Ok (index_a, cdata))))).

(** traits.rs:345-386 [mult_rowvector], 397-438 [multadd_rowvector] *)
Definition gen_mult_rowvector_cr (store : T -> T -> res T) (ROWS COLS : nat) (a x cm : list T) : cr (list T) :=
  calc cm (rd x 0) (fun b0 =>
  cmap snd (cfor_range 0 ROWS (0, cm) (fun index_c s => lastly s (let '(index_a, cdata) := s in
    av <- rd a index_a ;;
    total <- n_mul N av b0 ;;
    index_a <- uadd c index_a 1 ;;
    s <- for_range 1 COLS (index_a, total) (fun j s => let '(index_a, total) := s in
      av <- rd a index_a ;;
      xv <- rd x j ;;
      p <- n_mul N av xv ;;
      total <- n_add N total p ;;
      index_a <- uadd c index_a 1 ;;
      Ok (index_a, total)) ;;
    let '(index_a, total) := s in
    old <- rd cdata index_c ;;
    v <- store old total ;;
    cdata <- wr cdata index_c v ;;
    Ok (index_a, cdata))))).
Definition mult_rowvector_cr := gen_mult_rowvector_cr (fun _ total => Ok total).
Definition multadd_rowvector_cr := gen_mult_rowvector_cr (fun old total => n_add N old total).

(** traits.rs:449-497 [mult_transb], 509-557 [multadd_transb], 570-620 [multscale_transb]; the index is advanced after the write *)
Definition gen_mult_transb_cr (store : T -> T -> res T) (ROWS COLS U : nat) (a b cm : list T) : cr (list T) :=
  cmap snd (cfor_range 0 ROWS (0, 0, cm) (fun _ s => let '(c_index, a_index_start, cdata) := s in
    calc s (uadd c a_index_start COLS) (fun end_ =>
    within (fun s' => let '(c_index, _, cdata) := s' in (c_index, a_index_start, cdata)) (cfor_range 0 U (c_index, 0, cdata) (fun _ s => let '(c_index, index_b, cdata) := s in
      calc s (while_ (S COLS)
        (fun s => let '(index_a, _, _) := s in index_a <? end_)
        (fun s => let '(index_a, index_b, total) := s in
           av <- rd a index_a ;;
           bv <- rd b index_b ;;
           p <- n_mul N av bv ;;
           total <- n_add N total p ;;
           index_a <- uadd c index_a 1 ;;
           index_b <- uadd c index_b 1 ;;
           Ok (index_a, index_b, total))
        (a_index_start, index_b, n_zero N)) (fun s1 => let '(_, index_b, total) := s1 in
      calc s (old <- rd cdata c_index ;; v <- store old total ;; wr cdata c_index v) (fun cdata =>
      calc (c_index, index_b, cdata) (uadd c c_index 1) (fun c_index => Returned (c_index, index_b, cdata)))))) (fun s =>
    let '(c_index, _, cdata) := s in
    calc (c_index, a_index_start, cdata) (uadd c a_index_start COLS) (fun a_index_start => Returned (c_index, a_index_start, cdata)))))).
Definition mult_transb_cr := gen_mult_transb_cr (fun _ total => Ok total).
Definition multadd_transb_cr := gen_mult_transb_cr (fun old total => n_add N old total).
Definition multscale_transb_cr (scale : T) := gen_mult_transb_cr (fun _ total => n_mul N total scale).

(** traits.rs:662-681 [add_inplace_b], 690-709 [sub_inplace_b], 1033-1052 [add_inplace_a], 1061-1080 [sub_inplace_a] *)
Definition add_inplace_b_cr (ROWS COLS : nat) (a b : list T) : cr (list T) :=
  calc b (m_len c ROWS COLS) (fun count =>
  cfor_down count b (fun index bdata => lastly bdata (av <- rd a index ;; bv <- rd bdata index ;; v <- n_add N bv av ;; wr bdata index v))).
Definition sub_inplace_b_cr (ROWS COLS : nat) (a b : list T) : cr (list T) :=
  calc b (m_len c ROWS COLS) (fun count =>
  cfor_down count b (fun index bdata => lastly bdata (av <- rd a index ;; bv <- rd bdata index ;; v <- n_sub N av bv ;; wr bdata index v))).
Definition add_inplace_a_cr (ROWS COLS : nat) (a b : list T) : cr (list T) :=
  calc a (m_len c ROWS COLS) (fun count =>
  cfor_down count a (fun index adata => lastly adata (bv <- rd b index ;; av <- rd adata index ;; v <- n_add N av bv ;; wr adata index v))).
Definition sub_inplace_a_cr (ROWS COLS : nat) (a b : list T) : cr (list T) :=
  calc a (m_len c ROWS COLS) (fun count =>
  cfor_down count a (fun index adata => lastly adata (bv <- rd b index ;; av <- rd adata index ;; v <- n_sub N av bv ;; wr adata index v))).

(** traits.rs:769-817 [invert_l_cholesky] *)
Definition invert_phase1_cr (n : nat) (mat inv : list T) : cr (list T) :=
  cfor_range 0 n inv (fun i inv =>
    calc inv (ii <- umul c i n ;; ii <- uadd c ii i ;; el_ii <- rd mat ii ;; n_recip N el_ii) (fun inv_el_ii =>
    cfor_range 0 (S i) inv (fun j inv => lastly inv (
      let sum := if i =? j then n_one N else n_zero N in
      s <- sum_range N j i (fun k =>
        ik <- umul c i n ;;
        ik <- uadd c ik k ;;
        mv <- rd mat ik ;;
        nmv <- n_neg N mv ;;
        jk <- umul c j n ;;
        jk <- uadd c jk k ;;
        iv <- rd inv jk ;;
        n_mul N nmv iv) ;;
      sum <- n_add N sum s ;;
      v <- n_mul N sum inv_el_ii ;;
      ji <- umul c j n ;;
      ji <- uadd c ji i ;;
      wr inv ji v)))).
Definition invert_phase2_cr (n : nat) (mat inv : list T) : cr (list T) :=
  calc inv (usub c n 1) (fun last =>
  cfor_down (S last) inv (fun i inv =>
    calc inv (ii <- umul c i n ;; ii <- uadd c ii i ;; el_ii <- rd mat ii ;; n_recip N el_ii) (fun inv_el_ii =>
    cfor_range 0 (S i) inv (fun j inv =>
      calc inv (ji <- umul c j n ;; ji <- uadd c ji i ;; sum <- rd inv ji ;;
        let sum := if i <? j then n_zero N else sum in
        i1 <- uadd c i 1 ;;
        s <- sum_range N i1 n (fun k =>
          ki <- umul c k n ;;
          ki <- uadd c ki i ;;
          mv <- rd mat ki ;;
          nmv <- n_neg N mv ;;
          jk <- umul c j n ;;
          jk <- uadd c jk k ;;
          iv <- rd inv jk ;;
          n_mul N nmv iv) ;;
        sum <- n_add N sum s ;;
        n_mul N sum inv_el_ii) (fun value =>
      within (fun inv => inv) (lastly inv (ij <- umul c i n ;; ij <- uadd c ij j ;; wr inv ij value)) (fun inv =>
      lastly inv (ji <- umul c j n ;; ji <- uadd c ji i ;; wr inv ji value))))))).
Definition invert_l_cholesky_cr (n : nat) (mat inv : list T) : cr (list T) :=
  within (fun inv => inv) (invert_phase1_cr n mat inv) (fun inv => invert_phase2_cr n mat inv).

(** traits.rs:1135-1159: body of the loop over j of [cholesky_decompose_lower] *)
Definition chol_body_cr (n i : nat) (j : nat) (s : list T * T) : cr (ctl (list T * T) (list T)) :=
  let '(t, div_el_ii) := s in
  calc (Next s) (ij <- umul c i n ;; ij <- uadd c ij j ;; sum <- rd t ij ;; i_el <- umul c i n ;; j_el <- umul c j n ;; chol_inner c N i i_el j_el t sum) (fun sum =>
  calc (Next s) (v <- n_mul N sum div_el_ii ;; ji <- umul c j n ;; ji <- uadd c ji i ;; wr t ji v) (fun t =>
  if i =? j then
    if n_le N sum (n_zero N) then Returned (Return t)
    else
      calc (Next (t, div_el_ii)) (n_sqrt N sum) (fun el_ii =>
      calc (Next (t, div_el_ii)) (ii <- umul c i n ;; ii <- uadd c ii i ;; wr t ii el_ii) (fun t =>
      calc (Next (t, div_el_ii)) (n_recip N el_ii) (fun d => Returned (Next (t, d)))))
  else Returned (Next (t, div_el_ii)))).
Definition ctl_mem (o : ctl (list T * T) (list T)) : list T := match o with Next s => fst s | Return t => t end.
(** traits.rs:1162-1167 *)
Definition chol_zero_upper_cr (n : nat) (t : list T) : cr (list T) :=
  cfor_range 0 n t (fun i t =>
    calc t (uadd c i 1) (fun i1 =>
    cfor_range i1 n t (fun j t => lastly t (ij <- umul c i n ;; ij <- uadd c ij j ;; wr t ij (n_zero N))))).
(** traits.rs:1119-1170 [cholesky_decompose_lower], the flag dropped as its caller does (observations/regular.rs:389) *)
Definition cholesky_cr (ROWS COLS : nat) (t : list T) : cr (list T) :=
  let n := ROWS in
  calc t (_ <- dassert c (ROWS =? COLS) ;; dassert c (0 <? ROWS)) (fun _ =>
  within ctl_mem (cfor_range_ret 0 n (t, n_zero N) (fun i s => cfor_range_ret i n s (chol_body_cr n i))) (fun o =>
  match o with
  | Return t => Returned t
  | Next (t, _) => chol_zero_upper_cr n t
  end)).

(** kalman/regular.rs:426-445 [predict_x] *)
Definition w_px (f : kalman T) (px : list T) : kalman T := mk_kalman (kf_A f) (kf_x f) (kf_P f) (kf_Q f) px (kf_tP f).
Definition w_x (f : kalman T) (x : list T) : kalman T := mk_kalman (kf_A f) x (kf_P f) (kf_Q f) (kf_px f) (kf_tP f).
Definition w_P (f : kalman T) (P : list T) : kalman T := mk_kalman (kf_A f) (kf_x f) P (kf_Q f) (kf_px f) (kf_tP f).
Definition w_tP (f : kalman T) (tP : list T) : kalman T := mk_kalman (kf_A f) (kf_x f) (kf_P f) (kf_Q f) (kf_px f) tP.
Definition predict_x_cr (n : nat) (f : kalman T) : cr (kalman T) :=
  within (w_px f) (mult_rowvector_cr n n (kf_A f) (kf_x f) (kf_px f)) (fun px => let f := w_px f px in
  cmap (w_x f) (copy_to_cr n 1 px (kf_x f))).
(** kalman/regular.rs:449-471 [predict_P]; kalman/extended.rs:443-465 *)
Definition predict_P_cr (n : nat) (f : kalman T) : cr (kalman T) :=
  within (w_tP f) (mult_cr n n n (kf_A f) (kf_P f) (kf_tP f)) (fun tP => let f := w_tP f tP in
  within (w_P f) (mult_transb_cr n n n tP (kf_A f) (kf_P f)) (fun P =>
  cmap (w_P f) (add_inplace_b_cr n n (kf_Q f) P))).
(** kalman/regular.rs:475-501 [predict_P_tuned]; kalman/extended.rs:469-495 *)
Definition predict_P_tuned_cr (n : nat) (lambda : T) (f : kalman T) : cr (kalman T) :=
  calc f (l2 <- n_mul N lambda lambda ;; n_recip N l2) (fun factor =>
  within (w_tP f) (mult_cr n n n (kf_A f) (kf_P f) (kf_tP f)) (fun tP => let f := w_tP f tP in
  within (w_P f) (multscale_transb_cr factor n n n tP (kf_A f) (kf_P f)) (fun P =>
  cmap (w_P f) (add_inplace_b_cr n n (kf_Q f) P)))).
(** kalman/regular.rs:299-316 [predict], 404-421 [predict_tuned] *)
Definition predict_cr (n : nat) (f : kalman T) : cr (kalman T) := within (fun f => f) (predict_x_cr n f) (predict_P_cr n).
Definition predict_tuned_cr (n : nat) (lambda : T) (f : kalman T) : cr (kalman T) := within (fun f => f) (predict_x_cr n f) (predict_P_tuned_cr n lambda).
(** kalman/extended.rs:427-439 [predict_x_nonlinear]: a closure that unwinds leaves its output buffer as it likes *)
Definition predict_x_nonlinear_cr (n : nat) (h : list T -> list T -> cr (list T)) (f : kalman T) : cr (kalman T) :=
  within (w_px f) (h (kf_x f) (kf_px f)) (fun px => let f := w_px f px in
  cmap (w_x f) (copy_to_cr n 1 px (kf_x f))).
(** kalman/extended.rs:360-378 [predict_nonlinear], 405-423 [predict_tuned_nonlinear] *)
Definition predict_nonlinear_cr (n : nat) (h : list T -> list T -> cr (list T)) (f : kalman T) : cr (kalman T) :=
  within (fun f => f) (predict_x_nonlinear_cr n h f) (predict_P_cr n).
Definition predict_tuned_nonlinear_cr (n : nat) (lambda : T) (h : list T -> list T -> cr (list T)) (f : kalman T) : cr (kalman T) :=
  within (fun f => f) (predict_x_nonlinear_cr n h f) (predict_P_tuned_cr n lambda).

(** controls.rs:199-227 [apply_control], through kalman/regular.rs:505-513 [control] *)
Definition w_BQ (k : control T) (BQ : list T) : control T := mk_ctl (ct_B k) (ct_u k) (ct_Q k) BQ.
Definition control_cr (n m : nat) (k : control T) (f : kalman T) : cr (control T * kalman T) :=
  calc (k, f) (ue <- is_empty c m 1 ;; if ue then Ok true else is_empty c n m) (fun e =>
  if e then Returned (k, f)
  else
    within (fun x => (k, w_x f x)) (multadd_rowvector_cr n m (ct_B k) (ct_u k) (kf_x f)) (fun x => let f := w_x f x in
    within (fun BQ => (w_BQ k BQ, f)) (mult_cr n m m (ct_B k) (ct_Q k) (ct_BQ k)) (fun BQ => let k := w_BQ k BQ in
    cmap (fun P => (k, w_P f P)) (multadd_transb_cr n m n BQ (ct_B k) (kf_P f))))).

(** observations/regular.rs:365-419 [update_with_innovation]; observations/extended.rs:377-431 *)
Definition w_y (o : observation T) (y : list T) : observation T := mk_obs (ob_H o) (ob_z o) (ob_R o) y (ob_S o) (ob_K o) (ob_Sinv o) (ob_HP o) (ob_PHt o) (ob_KHP o).
Definition w_S (o : observation T) (S : list T) : observation T := mk_obs (ob_H o) (ob_z o) (ob_R o) (ob_y o) S (ob_K o) (ob_Sinv o) (ob_HP o) (ob_PHt o) (ob_KHP o).
Definition w_K (o : observation T) (K : list T) : observation T := mk_obs (ob_H o) (ob_z o) (ob_R o) (ob_y o) (ob_S o) K (ob_Sinv o) (ob_HP o) (ob_PHt o) (ob_KHP o).
Definition w_Sinv (o : observation T) (Si : list T) : observation T := mk_obs (ob_H o) (ob_z o) (ob_R o) (ob_y o) (ob_S o) (ob_K o) Si (ob_HP o) (ob_PHt o) (ob_KHP o).
Definition w_HP (o : observation T) (HP : list T) : observation T := mk_obs (ob_H o) (ob_z o) (ob_R o) (ob_y o) (ob_S o) (ob_K o) (ob_Sinv o) HP (ob_PHt o) (ob_KHP o).
Definition w_PHt (o : observation T) (PHt : list T) : observation T := mk_obs (ob_H o) (ob_z o) (ob_R o) (ob_y o) (ob_S o) (ob_K o) (ob_Sinv o) (ob_HP o) PHt (ob_KHP o).
Definition w_KHP (o : observation T) (KHP : list T) : observation T := mk_obs (ob_H o) (ob_z o) (ob_R o) (ob_y o) (ob_S o) (ob_K o) (ob_Sinv o) (ob_HP o) (ob_PHt o) KHP.
Definition update_cr (n m : nat) (o : observation T) (f : kalman T) : cr (observation T * kalman T) :=
  within (fun HP => (w_HP o HP, f)) (mult_cr m n n (ob_H o) (kf_P f) (ob_HP o)) (fun HP => let o := w_HP o HP in
  within (fun Sm => (w_S o Sm, f)) (mult_transb_cr m n m HP (ob_H o) (ob_S o)) (fun Sm =>
  within (fun Sm => (w_S o Sm, f)) (add_inplace_a_cr m m Sm (ob_R o)) (fun Sm =>
  within (fun Sm => (w_S o Sm, f)) (cholesky_cr m m Sm) (fun Sm => let o := w_S o Sm in
  within (fun Si => (w_Sinv o Si, f)) (invert_l_cholesky_cr m Sm (ob_Sinv o)) (fun Si => let o := w_Sinv o Si in
  within (fun PHt => (w_PHt o PHt, f)) (mult_transb_cr n n m (kf_P f) (ob_H o) (ob_PHt o)) (fun PHt => let o := w_PHt o PHt in
  within (fun K => (w_K o K, f)) (mult_cr n m m PHt Si (ob_K o)) (fun K => let o := w_K o K in
  within (fun x => (o, w_x f x)) (multadd_rowvector_cr n m K (ob_y o) (kf_x f)) (fun x => let f := w_x f x in
  within (fun HP => (w_HP o HP, f)) (mult_cr m n n (ob_H o) (kf_P f) (ob_HP o)) (fun HP => let o := w_HP o HP in
  within (fun KHP => (w_KHP o KHP, f)) (mult_cr n m n K HP (ob_KHP o)) (fun KHP => let o := w_KHP o KHP in
  cmap (fun P => (o, w_P f P)) (sub_inplace_a_cr n n (kf_P f) KHP))))))))))).
(** observations/regular.rs:339-356 [correct], through kalman/regular.rs:589-597 *)
Definition correct_cr (n m : nat) (o : observation T) (f : kalman T) : cr (observation T * kalman T) :=
  within (fun y => (w_y o y, f)) (mult_rowvector_cr m n (ob_H o) (kf_x f) (ob_y o)) (fun y =>
  within (fun y => (w_y o y, f)) (sub_inplace_b_cr m 1 (ob_z o) y) (fun y => update_cr n m (w_y o y) f)).
(** observations/extended.rs:350-368 [correct_nonlinear], through kalman/extended.rs:507-519 *)
Definition correct_nonlinear_cr (n m : nat) (h : list T -> list T -> cr (list T)) (o : observation T) (f : kalman T) : cr (observation T * kalman T) :=
  within (fun y => (w_y o y, f)) (h (kf_x f) (ob_y o)) (fun y =>
  within (fun y => (w_y o y, f)) (sub_inplace_b_cr m 1 (ob_z o) y) (fun y => update_cr n m (w_y o y) f)).

(** ** clients that catch panics (as History.v; closures leave their output buffer behind) *)
Inductive cop : Type :=
| CPredict
| CPredictTuned (lambda : T)
| CPredictNonlinear (h : list T -> list T -> cr (list T))
| CPredictTunedNonlinear (lambda : T) (h : list T -> list T -> cr (list T))
| CControl (i : nat)
| CCorrect (j : nat)
| CCorrectNonlinear (j : nat) (h : list T -> list T -> cr (list T))
| CWrite (o : op T).                                                   (* a setter of History.v; other operations stand for no call *)

Definition is_setter (o : op T) : bool :=
  match o with OPredict | OPredictTuned _ | OPredictNonlinear _ | OPredictTunedNonlinear _ _ | OControl _ | OCorrect _ | OCorrectNonlinear _ _ => false | _ => true end.
Definition step_cr (n : nat) (w : world T) (o : cop) : cr (world T) :=
  match o with
  | CPredict => cmap (set_kf w) (predict_cr n (w_kf w))
  | CPredictTuned lam => cmap (set_kf w) (predict_tuned_cr n lam (w_kf w))
  | CPredictNonlinear h => cmap (set_kf w) (predict_nonlinear_cr n h (w_kf w))
  | CPredictTunedNonlinear lam h => cmap (set_kf w) (predict_tuned_nonlinear_cr n lam h (w_kf w))
  | CControl i => match nth_error (w_ct w) i with
      | Some (m, k) => cmap (fun r => set_ct (set_kf w (snd r)) i (m, fst r)) (control_cr n m k (w_kf w))
      | None => Returned w end
  | CCorrect j => match nth_error (w_ob w) j with
      | Some (m, b) => cmap (fun r => set_ob (set_kf w (snd r)) j (m, fst r)) (correct_cr n m b (w_kf w))
      | None => Returned w end
  | CCorrectNonlinear j h => match nth_error (w_ob w) j with
      | Some (m, b) => cmap (fun r => set_ob (set_kf w (snd r)) j (m, fst r)) (correct_nonlinear_cr n m h b (w_kf w))
      | None => Returned w end
  | CWrite o => if is_setter o then lastly w (step c N n w o) else Returned w
  end.
(** the calls one after the other, panics caught; with what became of each call *)
Fixpoint run_catch (n : nat) (w : world T) (os : list cop) : world T * list (option panic) :=
  match os with
  | [] => (w, [])
  | o :: os => match step_cr n w o with
      | Returned w' => let r := run_catch n w' os in (fst r, None :: snd r)
      | Unwound w' p => let r := run_catch n w' os in (fst r, Some p :: snd r)
      end
  end.
End Crash.
Arguments cop : clear implicits.
