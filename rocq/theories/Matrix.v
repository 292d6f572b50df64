(** * matrix/row_major.rs and matrix/traits.rs

    A matrix is a slice ([list T]) together with its const generics [ROWS],
    [COLS]; the slice may be longer than ROWS*COLS.  Every function takes the build
    configuration [c] and the element type's operations [N].

    Not repeated in the definitions: the [debug_assert_eq!] lines comparing
    [rows()]/[cols()] of the operands.  They compare const generics that the
    function's own type signature already forces to be equal (the library never
    overrides [rows]/[cols]), so they cannot fail.  The assertions that can fail
    are modelled. *)
From Verif Require Export Numeric.

Section Matrix.
Context {T : Type} (c : cfg) (N : num T).

(** row_major.rs:11-13 [len] *)
Definition m_len (ROWS COLS : nat) : res nat := umul c ROWS COLS.

(** row_major.rs:17-19 [buffer_len] *)
Definition buffer_len (m : list T) : nat := length m.

(** row_major.rs:23-25 [is_empty] *)
Definition is_empty (ROWS COLS : nat) : res bool :=
  l <- umul c ROWS COLS ;; Ok (l =? 0).

(** row_major.rs:28-30 [is_valid] *)
Definition is_valid (ROWS COLS : nat) (m : list T) : res bool :=
  l <- m_len ROWS COLS ;; Ok (l <=? buffer_len m).

(** row_major.rs:43-49 [get_at] (ROWS is not consulted); traits.rs:59-64 [get] *)
Definition get_at (COLS : nat) (m : list T) (row column : nat) : res T :=
  rc <- umul c row COLS ;;
  i <- uadd c rc column ;;
  rd m i.

(** row_major.rs:69-72 [set_at]; traits.rs:980-983 [set] (same index expression) *)
Definition set_at (COLS : nat) (m : list T) (row column : nat) (value : T) : res (list T) :=
  rc <- umul c row COLS ;;
  i <- uadd c rc column ;;
  wr m i value.

(** traits.rs:73-94 [get_column_copy]; the loop runs at most ROWS times. *)
Definition get_column_copy (ROWS COLS : nat) (src : list T) (column : nat) (col_data : list T)
  : res (list T) :=
  r1 <- usub c ROWS 1 ;;
  let target_index := as_isize c r1 in
  let stride := as_isize c COLS in
  ts <- imul c target_index stride ;;
  source_index <- iadd c ts (as_isize c column) ;;
  v <- rd src (as_usize c source_index) ;;
  col_data <- wr col_data (as_usize c target_index) v ;;
  s <- while_ (S ROWS)
    (fun s => let '(target_index, _, _) := s in negb (target_index =? 0)%Z)
    (fun s => let '(target_index, source_index, col_data) := s in
       target_index <- isub c target_index 1%Z ;;
       source_index <- isub c source_index stride ;;
       v <- rd src (as_usize c source_index) ;;
       col_data <- wr col_data (as_usize c target_index) v ;;
       Ok (target_index, source_index, col_data))
    (target_index, source_index, col_data) ;;
  let '(_, _, col_data) := s in Ok col_data.

(** traits.rs:103-117 [get_row_copy]; the loop runs at most COLS times. *)
Definition get_row_copy (COLS : nat) (data : list T) (row : nat) (row_data : list T)
  : res (list T) :=
  target_index <- usub c COLS 1 ;;
  row1 <- uadd c row 1 ;;
  cols1 <- usub c COLS 1 ;;
  source_index <- umul c row1 cols1 ;;
  v <- rd data source_index ;;
  row_data <- wr row_data target_index v ;;
  s <- while_ (S COLS)
    (fun s => let '(target_index, _, _) := s in negb (target_index =? 0))
    (fun s => let '(target_index, source_index, row_data) := s in
       target_index <- usub c target_index 1 ;;
       source_index <- usub c source_index 1 ;;
       v <- rd data source_index ;;
       row_data <- wr row_data target_index v ;;
       Ok (target_index, source_index, row_data))
    (target_index, source_index, row_data) ;;
  let '(_, _, row_data) := s in Ok row_data.

(** traits.rs:138-157 [copy_to] (and [copy] 125-131, [copy_from] 165-172, which forward to it).
    [0..=(count - 1)] has count-1+1 elements. *)
Definition copy_to (ROWS COLS : nat) (a target : list T) : res (list T) :=
  count <- m_len ROWS COLS ;;
  last <- usub c count 1 ;;
  for_down (S last) target (fun index bdata =>
    v <- rd a index ;;
    wr bdata index v).

(** traits.rs:214-258 [mult_buffered]; returns the output matrix and the scratch buffer. *)
Definition mult_buffered (ROWS COLS U : nat) (a b cm baux : list T) : res (list T * list T) :=
  _ <- dassert c (length baux =? COLS) ;;
  for_down U (cm, baux) (fun j s => let '(cdata, baux) := s in
    baux <- get_column_copy COLS U b j baux ;;
    s <- for_range 0 ROWS (0, cdata) (fun i s => let '(index_a, cdata) := s in
      s <- for_range 0 COLS (index_a, n_zero N) (fun k s => let '(index_a, total) := s in
        av <- rd a index_a ;;
        bv <- rd baux k ;;
        p <- n_mul N av bv ;;
        total <- n_add N total p ;;
        index_a <- uadd c index_a 1 ;;
        Ok (index_a, total)) ;;
      let '(index_a, total) := s in
      ic <- umul c i U ;;
      ic <- uadd c ic j ;;
      cdata <- wr cdata ic total ;;
      Ok (index_a, cdata)) ;;
    let '(_, cdata) := s in Ok (cdata, baux)).

(** traits.rs:296-334 [mult] *)
Definition mult (ROWS COLS U : nat) (a b cm : list T) : res (list T) :=
  for_down U cm (fun j cdata =>
    s <- for_range 0 ROWS (0, cdata) (fun i s => let '(index_a, cdata) := s in
      s <- for_range 0 COLS (index_a, n_zero N) (fun k s => let '(index_a, total) := s in
        av <- rd a index_a ;;
        kb <- umul c k U ;;
        kb <- uadd c kb j ;;
        bv <- rd b kb ;;
        p <- n_mul N av bv ;;
        total <- n_add N total p ;;
        index_a <- uadd c index_a 1 ;;
        Ok (index_a, total)) ;;
      let '(index_a, total) := s in
      ic <- umul c i U ;;
      ic <- uadd c ic j ;;
      cdata <- wr cdata ic total ;;
      Ok (index_a, cdata)) ;;
    let '(_, cdata) := s in Ok cdata).

(** The part common to traits.rs:345-386 and 397-438: [store old total] is what
    is assigned to [cdata[index_c]] ([=] in one, [+=] in the other). *)
Definition gen_mult_rowvector (store : T -> T -> res T) (ROWS COLS : nat) (a x cm : list T)
  : res (list T) :=
  b0 <- rd x 0 ;;
  s <- for_range 0 ROWS (0, cm) (fun index_c s => let '(index_a, cdata) := s in
    av <- rd a index_a ;;
    total <- n_mul N av b0 ;;
    index_a <- uadd c index_a 1 ;;
    s <- for_range 1 COLS (index_a, total) (fun j s => let '(index_a, total) := s in
      av <- rd a index_a ;;
      xv <- rd x j ;;
      p <- n_mul N av xv ;;
      total <- n_add N total p ;;
      index_a <- uadd c index_a 1 ;;
      Ok (index_a, total)) ;;
    let '(index_a, total) := s in
    old <- rd cdata index_c ;;
    v <- store old total ;;
    cdata <- wr cdata index_c v ;;
    Ok (index_a, cdata)) ;;
  let '(_, cdata) := s in Ok cdata.

(** traits.rs:345-386 [mult_rowvector] ([cdata[index_c] = total]; the read of the
    old value that the shared helper does has the same index as the write) *)
Definition mult_rowvector := gen_mult_rowvector (fun _ total => Ok total).

(** traits.rs:397-438 [multadd_rowvector] ([cdata[index_c] += total]) *)
Definition multadd_rowvector := gen_mult_rowvector (fun old total => n_add N old total).

(** The part common to traits.rs:449-497, 509-557 and 570-620; [store old total] is
    what is assigned to [cdata[c_index]].  The [while] loop runs COLS times. *)
Definition gen_mult_transb (store : T -> T -> res T) (ROWS COLS U : nat) (a b cm : list T)
  : res (list T) :=
  s <- for_range 0 ROWS (0, 0, cm) (fun _ s => let '(c_index, a_index_start, cdata) := s in
    end_ <- uadd c a_index_start COLS ;;
    s <- for_range 0 U (c_index, 0, cdata) (fun _ s => let '(c_index, index_b, cdata) := s in
      s <- while_ (S COLS)
        (fun s => let '(index_a, _, _) := s in index_a <? end_)
        (fun s => let '(index_a, index_b, total) := s in
           av <- rd a index_a ;;
           bv <- rd b index_b ;;
           p <- n_mul N av bv ;;
           total <- n_add N total p ;;
           index_a <- uadd c index_a 1 ;;
           index_b <- uadd c index_b 1 ;;
           Ok (index_a, index_b, total))
        (a_index_start, index_b, n_zero N) ;;
      let '(_, index_b, total) := s in
      old <- rd cdata c_index ;;
      v <- store old total ;;
      cdata <- wr cdata c_index v ;;
      c_index <- uadd c c_index 1 ;;
      Ok (c_index, index_b, cdata)) ;;
    let '(c_index, _, cdata) := s in
    a_index_start <- uadd c a_index_start COLS ;;
    Ok (c_index, a_index_start, cdata)) ;;
  let '(_, _, cdata) := s in Ok cdata.

(** traits.rs:449-497 [mult_transb] *)
Definition mult_transb := gen_mult_transb (fun _ total => Ok total).

(** traits.rs:509-557 [multadd_transb] *)
Definition multadd_transb := gen_mult_transb (fun old total => n_add N old total).

(** traits.rs:570-620 [multscale_transb] *)
Definition multscale_transb (scale : T) := gen_mult_transb (fun _ total => n_mul N total scale).

(** traits.rs:630-653 [sub]: C = A - B *)
Definition m_sub (ROWS COLS : nat) (a b cm : list T) : res (list T) :=
  count <- m_len ROWS COLS ;;
  for_down count cm (fun index cdata =>
    av <- rd a index ;;
    bv <- rd b index ;;
    v <- n_sub N av bv ;;
    wr cdata index v).

(** traits.rs:662-681 [add_inplace_b]: B += A *)
Definition add_inplace_b (ROWS COLS : nat) (a b : list T) : res (list T) :=
  count <- m_len ROWS COLS ;;
  for_down count b (fun index bdata =>
    av <- rd a index ;;
    bv <- rd bdata index ;;
    v <- n_add N bv av ;;
    wr bdata index v).

(** traits.rs:690-709 [sub_inplace_b]: B = A - B *)
Definition sub_inplace_b (ROWS COLS : nat) (a b : list T) : res (list T) :=
  count <- m_len ROWS COLS ;;
  for_down count b (fun index bdata =>
    av <- rd a index ;;
    bv <- rd bdata index ;;
    v <- n_sub N av bv ;;
    wr bdata index v).

(** traits.rs:1033-1052 [add_inplace_a]: A += B *)
Definition add_inplace_a (ROWS COLS : nat) (a b : list T) : res (list T) :=
  count <- m_len ROWS COLS ;;
  for_down count a (fun index adata =>
    bv <- rd b index ;;
    av <- rd adata index ;;
    v <- n_add N av bv ;;
    wr adata index v).

(** traits.rs:1061-1080 [sub_inplace_a]: A -= B *)
Definition sub_inplace_a (ROWS COLS : nat) (a b : list T) : res (list T) :=
  count <- m_len ROWS COLS ;;
  for_down count a (fun index adata =>
    bv <- rd b index ;;
    av <- rd adata index ;;
    v <- n_sub N av bv ;;
    wr adata index v).

(** [(lo..hi).map(f).sum::<T>()] *)
Definition sum_range (lo hi : nat) (f : nat -> res T) : res T :=
  for_range lo hi (n_sum0 N) (fun k acc => v <- f k ;; n_add N acc v).

(** traits.rs:769-817 [invert_l_cholesky], first loop (lines 780-795) *)
Definition invert_phase1 (n : nat) (mat inv : list T) : res (list T) :=
  for_range 0 n inv (fun i inv =>
    ii <- umul c i n ;;
    ii <- uadd c ii i ;;
    el_ii <- rd mat ii ;;
    inv_el_ii <- n_recip N el_ii ;;
    for_range 0 (S i) inv (fun j inv =>
      let sum := if i =? j then n_one N else n_zero N in
      s <- sum_range j i (fun k =>
        ik <- umul c i n ;;
        ik <- uadd c ik k ;;
        mv <- rd mat ik ;;
        nmv <- n_neg N mv ;;
        jk <- umul c j n ;;
        jk <- uadd c jk k ;;
        iv <- rd inv jk ;;
        n_mul N nmv iv) ;;
      sum <- n_add N sum s ;;
      v <- n_mul N sum inv_el_ii ;;
      ji <- umul c j n ;;
      ji <- uadd c ji i ;;
      wr inv ji v)).

(** traits.rs:769-817 [invert_l_cholesky], second loop (lines 799-816).
    The branch [if i < j] is dead ([j <= i]) but kept. *)
Definition invert_phase2 (n : nat) (mat inv : list T) : res (list T) :=
  last <- usub c n 1 ;;
  for_down (S last) inv (fun i inv =>
    ii <- umul c i n ;;
    ii <- uadd c ii i ;;
    el_ii <- rd mat ii ;;
    inv_el_ii <- n_recip N el_ii ;;
    for_range 0 (S i) inv (fun j inv =>
      ji <- umul c j n ;;
      ji <- uadd c ji i ;;
      sum <- rd inv ji ;;
      let sum := if i <? j then n_zero N else sum in
      i1 <- uadd c i 1 ;;
      s <- sum_range i1 n (fun k =>
        ki <- umul c k n ;;
        ki <- uadd c ki i ;;
        mv <- rd mat ki ;;
        nmv <- n_neg N mv ;;
        jk <- umul c j n ;;
        jk <- uadd c jk k ;;
        iv <- rd inv jk ;;
        n_mul N nmv iv) ;;
      sum <- n_add N sum s ;;
      value <- n_mul N sum inv_el_ii ;;
      ij <- umul c i n ;;
      ij <- uadd c ij j ;;
      inv <- wr inv ij value ;;
      ji <- umul c j n ;;
      ji <- uadd c ji i ;;
      wr inv ji value)).

(** traits.rs:769-817 [invert_l_cholesky] *)
Definition invert_l_cholesky (n : nat) (mat inv : list T) : res (list T) :=
  inv <- invert_phase1 n mat inv ;;
  invert_phase2 n mat inv.

(** traits.rs:865-875 [make_comatrix] *)
Definition make_comatrix (n : nat) (diagonal off_diagonal : T) (m : list T) : res (list T) :=
  for_range 0 n m (fun i data =>
    for_range 0 n data (fun j data =>
      ij <- umul c i n ;;
      ij <- uadd c ij j ;;
      wr data ij (if i =? j then diagonal else off_diagonal))).

(** traits.rs:826-831 [make_identity] *)
Definition make_identity (n : nat) (m : list T) : res (list T) :=
  make_comatrix n (n_one N) (n_zero N) m.

(** traits.rs:838-843 [make_scalar] *)
Definition make_scalar (n : nat) (diagonal : T) (m : list T) : res (list T) :=
  make_comatrix n diagonal (n_zero N) m.

(** traits.rs:849-857 [set_diagonal_to_scalar] *)
Definition set_diagonal_to_scalar (n : nat) (value : T) (m : list T) : res (list T) :=
  for_range 0 n m (fun i data =>
    ii <- umul c i n ;;
    ii <- uadd c ii i ;;
    wr data ii value).

(** traits.rs:881-889 [Scalar::get_value], 891-900 [RowVector::get_row], 902-911 [ColumnVector::get_col] *)
Definition get_value (m : list T) : res T := get_at 1 m 0 0.
Definition get_row (m : list T) (row : nat) : res T := get_at 1 m row 0.
Definition get_col (COLS : nat) (m : list T) (column : nat) : res T := get_at COLS m 0 column.

(** traits.rs:913-919 [ScalarMut::set_value], 921-929 [RowVectorMut::set_row], 931-939 [ColumnVectorMut::set_col] *)
Definition set_value (m : list T) (v : T) : res (list T) := set_at 1 m 0 0 v.
Definition set_row (m : list T) (row : nat) (v : T) : res (list T) := set_at 1 m row 0 v.
Definition set_col (COLS : nat) (m : list T) (column : nat) (v : T) : res (list T) := set_at COLS m 0 column v.

(** traits.rs:991-996 [set_all]: [slice::fill] of the whole underlying buffer *)
Definition set_all (m : list T) (value : T) : list T := repeat value (length m).

(** traits.rs:965-970 [clear], 1003-1008 [set_zero] *)
Definition clear (m : list T) : list T := set_all m (n_zero N).
Definition set_zero (m : list T) : list T := set_all m (n_zero N).

(** traits.rs:1018-1024 [set_symmetric] *)
Definition set_symmetric (COLS : nat) (m : list T) (row column : nat) (value : T) : res (list T) :=
  m <- set_at COLS m row column value ;;
  set_at COLS m column row value.

(** traits.rs:1138-1146: the innermost [while] of the Cholesky decomposition;
    it runs i times. *)
Definition chol_inner (i i_el j_el : nat) (t : list T) (sum : T) : res T :=
  end_ <- uadd c i_el i ;;
  s <- while_ (S i)
    (fun s => let '(i_el, _, _) := s in i_el <? end_)
    (fun s => let '(i_el, j_el, sum) := s in
       ti <- rd t i_el ;;
       tj <- rd t j_el ;;
       p <- n_mul N ti tj ;;
       sum <- n_sub N sum p ;;
       i_el <- uadd c i_el 1 ;;
       j_el <- uadd c j_el 1 ;;
       Ok (i_el, j_el, sum))
    (i_el, j_el, sum) ;;
  let '(_, _, sum) := s in Ok sum.

(** traits.rs:1135-1159: body of the loop over j.  State: the buffer and [div_el_ii].
    [Return t] is the early [return false] with the buffer as it is then. *)
Definition chol_body (n i : nat) (j : nat) (s : list T * T) : res (ctl (list T * T) (list T)) :=
  let '(t, div_el_ii) := s in
  ij <- umul c i n ;;
  ij <- uadd c ij j ;;
  sum <- rd t ij ;;
  i_el <- umul c i n ;;
  j_el <- umul c j n ;;
  sum <- chol_inner i i_el j_el t sum ;;
  v <- n_mul N sum div_el_ii ;;
  ji <- umul c j n ;;
  ji <- uadd c ji i ;;
  t <- wr t ji v ;;
  if i =? j then
    if n_le N sum (n_zero N) then Ok (Return t)
    else
      el_ii <- n_sqrt N sum ;;
      ii <- umul c i n ;;
      ii <- uadd c ii i ;;
      t <- wr t ii el_ii ;;
      d <- n_recip N el_ii ;;
      Ok (Next (t, d))
  else Ok (Next (t, div_el_ii)).

(** traits.rs:1162-1167: zero out the top right corner *)
Definition chol_zero_upper (n : nat) (t : list T) : res (list T) :=
  for_range 0 n t (fun i t =>
    i1 <- uadd c i 1 ;;
    for_range i1 n t (fun j t =>
      ij <- umul c i n ;;
      ij <- uadd c ij j ;;
      wr t ij (n_zero N))).

(** traits.rs:1119-1170 [cholesky_decompose_lower]; returns the flag and the buffer. *)
Definition cholesky_decompose_lower (ROWS COLS : nat) (t : list T) : res (bool * list T) :=
  let n := ROWS in
  _ <- dassert c (ROWS =? COLS) ;;
  _ <- dassert c (0 <? ROWS) ;;
  o <- for_range_ret 0 n (t, n_zero N) (fun i s =>
         for_range_ret i n s (chol_body n i)) ;;
  match o with
  | Return t => Ok (false, t)
  | Next (t, _) =>
      t <- chol_zero_upper n t ;;
      Ok (true, t)
  end.

End Matrix.
