(** * Scratch buffers that share memory

    The documentation allows some temporaries to be backed by the same memory and forbids others:
    observations/regular.rs:175-202, observations/extended.rs:175-202, kalman/regular.rs:116 and
    kalman/extended.rs:116 (temp_P with temp_BQ).  Here every temporary is a region of one memory [mem] and the
    regions may overlap in any way.  Reads and writes of the temporaries go to that memory; all other
    matrices stay separate.

    Simplification: a kernel that uses a single region reads the region, works on it and writes it back;
    nothing else it touches is in [mem], so nothing could observe the difference.  Two kernels use two
    regions: PHt * S_inv only reads both, and K * HP, written to KHP, is modelled access by access ([mult_shared]).
    Not modelled: Rust's rule that two live [&mut] never overlap (clients do this in unsafe code). *)
From Verif Require Export History.

(** offset and length *)
Definition region : Type := (nat * nat)%type.

Section Alias.
Context {T : Type} (c : cfg) (N : num T).

(** the slice a region stands for; replacing its contents *)
Definition view (r : region) (mem : list T) : list T := firstn (snd r) (skipn (fst r) mem).
Definition put_view (r : region) (mem l : list T) : list T :=
  firstn (fst r) mem ++ l ++ skipn (fst r + snd r) mem.

(** [buf[i]], [buf[i] = v] on such a slice *)
Definition rdv (r : region) (mem : list T) (i : nat) : res T :=
  if i <? snd r then rd mem (fst r + i) else Panic IndexOOB.
Definition wrv (r : region) (mem : list T) (i : nat) (v : T) : res (list T) :=
  if i <? snd r then wr mem (fst r + i) v else Panic IndexOOB.

(** traits.rs:296-334 [mult] with [b] and [c] in shared memory *)
Definition mult_shared (ROWS COLS U : nat) (a : list T) (rb rc : region) (mem : list T) : res (list T) :=
  for_down U mem (fun j mem =>
    s <- for_range 0 ROWS (0, mem) (fun i s => let '(index_a, mem) := s in
      s <- for_range 0 COLS (index_a, n_zero N) (fun k s => let '(index_a, total) := s in
        av <- rd a index_a ;;
        kb <- umul c k U ;;
        kb <- uadd c kb j ;;
        bv <- rdv rb mem kb ;;
        p <- n_mul N av bv ;;
        total <- n_add N total p ;;
        index_a <- uadd c index_a 1 ;;
        Ok (index_a, total)) ;;
      let '(index_a, total) := s in
      ic <- umul c i U ;;
      ic <- uadd c ic j ;;
      mem <- wrv rc mem ic total ;;
      Ok (index_a, mem)) ;;
    let '(_, mem) := s in Ok mem).

(** where the temporaries of an observation live (fields temp_S_inv, temp_HP, temp_PHt, temp_KHP) *)
Record oregions : Type := mk_oregions { r_Sinv : region; r_HP : region; r_PHt : region; r_KHP : region }.

(** observations/regular.rs:365-419 [update_with_innovation] = observations/extended.rs:377-431, temporaries in [mem];
    the temporaries inside [o] are not used *)
Definition update_shared (n m : nat) (L : oregions) (o : observation T) (x P mem : list T)
  : res (observation T * list T * list T * list T) :=
  HP <- mult c N m n n (ob_H o) P (view (r_HP L) mem) ;;
  let mem := put_view (r_HP L) mem HP in
  Sm <- mult_transb c N m n m (view (r_HP L) mem) (ob_H o) (ob_S o) ;;
  Sm <- add_inplace_a c N m m Sm (ob_R o) ;;
  r <- cholesky_decompose_lower c N m m Sm ;;
  let '(_, Sm) := r in
  Sinv <- invert_l_cholesky c N m Sm (view (r_Sinv L) mem) ;;
  let mem := put_view (r_Sinv L) mem Sinv in
  PHt <- mult_transb c N n n m P (ob_H o) (view (r_PHt L) mem) ;;
  let mem := put_view (r_PHt L) mem PHt in
  K <- mult c N n m m (view (r_PHt L) mem) (view (r_Sinv L) mem) (ob_K o) ;;
  x <- multadd_rowvector c N n m K (ob_y o) x ;;
  HP <- mult c N m n n (ob_H o) P (view (r_HP L) mem) ;;
  let mem := put_view (r_HP L) mem HP in
  mem <- mult_shared n m n K (r_HP L) (r_KHP L) mem ;;
  P <- sub_inplace_a c N n n P (view (r_KHP L) mem) ;;
  Ok (mk_obs (ob_H o) (ob_z o) (ob_R o) (ob_y o) Sm K (ob_Sinv o) (ob_HP o) (ob_PHt o) (ob_KHP o), x, P, mem).

(** observations/regular.rs:339-356 [correct], kalman/regular.rs:589-597 [correct] *)
Definition correct_shared (n m : nat) (L : oregions) (o : observation T) (f : kalman T) (mem : list T)
  : res (observation T * kalman T * list T) :=
  y <- mult_rowvector c N m n (ob_H o) (kf_x f) (ob_y o) ;;
  y <- sub_inplace_b c N m 1 (ob_z o) y ;;
  r <- update_shared n m L (set_y o y) (kf_x f) (kf_P f) mem ;;
  let '(o, x, P, mem) := r in
  Ok (o, mk_kalman (kf_A f) x P (kf_Q f) (kf_px f) (kf_tP f), mem).

(** observations/extended.rs:350-368, kalman/extended.rs:507-519 [correct_nonlinear] *)
Definition correct_nonlinear_shared (n m : nat) (h : list T -> list T -> res (list T)) (L : oregions)
    (o : observation T) (f : kalman T) (mem : list T) : res (observation T * kalman T * list T) :=
  y <- h (kf_x f) (ob_y o) ;;
  y <- sub_inplace_b c N m 1 (ob_z o) y ;;
  r <- update_shared n m L (set_y o y) (kf_x f) (kf_P f) mem ;;
  let '(o, x, P, mem) := r in
  Ok (o, mk_kalman (kf_A f) x P (kf_Q f) (kf_px f) (kf_tP f), mem).

(** where the filter's temp_P, the i-th control's temp_BQ and the j-th observation's temporaries live *)
Record layout : Type := mk_layout { l_P : region; l_BQ : nat -> region; l_ob : nat -> oregions }.

(** one call ([History.step]) with all temporaries in [mem].  predict (kalman/regular.rs:449-501) and control
    (controls.rs:199-227) use one temporary each. *)
Definition step_shared (n : nat) (L : layout) (s : world T * list T) (o : op T) : res (world T * list T) :=
  let '(w, mem) := s in
  match o with
  | OPredict | OPredictTuned _ | OPredictNonlinear _ | OPredictTunedNonlinear _ _ =>
      let f := w_kf w in
      w <- step c N n (set_kf w (mk_kalman (kf_A f) (kf_x f) (kf_P f) (kf_Q f) (kf_px f) (view (l_P L) mem))) o ;;
      Ok (w, put_view (l_P L) mem (kf_tP (w_kf w)))
  | OControl i =>
      match nth_error (w_ct w) i with
      | Some (m, k) =>
          r <- control_ c N n m (mk_ctl (ct_B k) (ct_u k) (ct_Q k) (view (l_BQ L i) mem)) (w_kf w) ;;
          let '(k, f) := r in
          Ok (set_ct (set_kf w f) i (m, k), put_view (l_BQ L i) mem (ct_BQ k))
      | None => Ok (w, mem)
      end
  | OCorrect j =>
      match nth_error (w_ob w) j with
      | Some (m, b) =>
          r <- correct_shared n m (l_ob L j) b (w_kf w) mem ;;
          let '(b, f, mem) := r in Ok (set_ob (set_kf w f) j (m, b), mem)
      | None => Ok (w, mem)
      end
  | OCorrectNonlinear j h =>
      match nth_error (w_ob w) j with
      | Some (m, b) =>
          r <- correct_nonlinear_shared n m h (l_ob L j) b (w_kf w) mem ;;
          let '(b, f, mem) := r in Ok (set_ob (set_kf w f) j (m, b), mem)
      | None => Ok (w, mem)
      end
  | _ => w <- step c N n w o ;; Ok (w, mem)
  end.

Fixpoint run_shared (n : nat) (L : layout) (s : world T * list T) (os : list (op T)) : res (world T * list T) :=
  match os with
  | [] => Ok s
  | o :: os => s' <- step_shared n L s o ;; run_shared n L s' os
  end.

End Alias.
