(** * Matrix operations called by the program itself, with what a panic leaves behind (continues Crash.v) *)
From Verif Require Export Crash.

Section CrashMatrix.
Context {T : Type} (c : cfg) (N : num T).

(** traits.rs:214-258 [mult_buffered]; the memory is the output matrix and the scratch buffer.  Simplification: a panic inside the column copy itself
    (only possible with storage that is too small) is modelled as leaving the scratch buffer alone. *)
Definition mult_buffered_cr (ROWS COLS U : nat) (a b cm baux : list T) : cr (list T * list T) :=
  calc (cm, baux) (dassert c (length baux =? COLS)) (fun _ =>
  cfor_down U (cm, baux) (fun j s => let '(cdata, baux) := s in
    calc (cdata, baux) (get_column_copy c COLS U b j baux) (fun baux =>
    cmap (fun s => (snd s, baux)) (cfor_range 0 ROWS (0, cdata) (fun i s => lastly s (let '(index_a, cdata) := s in
      s <- for_range 0 COLS (index_a, n_zero N) (fun k s => let '(index_a, total) := s in
        av <- rd a index_a ;;
        bv <- rd baux k ;;
        p <- n_mul N av bv ;;
        total <- n_add N total p ;;
        index_a <- uadd c index_a 1 ;;
        Ok (index_a, total)) ;;
      let '(index_a, total) := s in
      ic <- umul c i U ;;
      ic <- uadd c ic j ;;
      cdata <- wr cdata ic total ;;
      Ok (index_a, cdata))))))).

(** traits.rs:630-654 [sub]: C = A - B *)
Definition m_sub_cr (ROWS COLS : nat) (a b cm : list T) : cr (list T) :=
  calc cm (m_len c ROWS COLS) (fun count =>
  cfor_down count cm (fun index cdata => lastly cdata (av <- rd a index ;; bv <- rd b index ;; v <- n_sub N av bv ;; wr cdata index v))).
End CrashMatrix.
