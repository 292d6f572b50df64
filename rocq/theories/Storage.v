(** * matrix/data.rs, matrix/data/*.rs, buffers/types/*.rs, buffers/builder.rs,
      matrix/nalgebra_support.rs

    A constructed matrix is its backing slice; the const generics are parameters.
    Newtype wrappers (the 18 buffer types, [MatrixDataRowMajor(Mut)]) only forward
    [as_slice]/[as_mut_slice], so a buffer is modelled by the matrix it wraps. *)
From Verif Require Export Matrix.

Section Storage.
Context {T : Type} (c : cfg).

(** matrix/data/matrix_data_array.rs:27-33 [MatrixDataArray::new]; also the
    [From<[T; TOTAL]>] of matrix_data_mut.rs:56-63 which calls it. [data] has length TOTAL. *)
Definition array_new (ROWS COLS : nat) (data : list T) : res (list T) :=
  if no_assert c then Ok data
  else
    l <- umul c ROWS COLS ;;
    _ <- assert_ (l =? length data) ;;
    Ok data.

(** matrix/data/matrix_data_array.rs:36-38 [new_unchecked]; matrix/data.rs:87-91 [MatrixData::new_array] *)
Definition array_new_unchecked (ROWS COLS : nat) (data : list T) : res (list T) := Ok data.

(** matrix/data/matrix_data_boxed.rs:26-36 [MatrixDataBoxed::new]; matrix/data.rs:77-84
    [MatrixData::new_boxed]; [From<B>] matrix_data_boxed.rs:53-61 *)
Definition boxed_new (ROWS COLS : nat) (data : list T) : res (list T) :=
  if no_assert c then Ok data
  else
    l <- umul c ROWS COLS ;;
    _ <- assert_ (l =? length data) ;;
    Ok data.

(** matrix/data.rs:67-72 [MatrixData::new] *)
Definition matrix_new (ROWS COLS : nat) (init : T) : res (list T) :=
  l <- umul c ROWS COLS ;;
  boxed_new ROWS COLS (repeat init l).

(** matrix/data.rs:94-105 [new_ref], [new_mut]; data/matrix_data_ref.rs:16-18, data/matrix_data_mut.rs:24-26: no check *)
Definition ref_new (ROWS COLS : nat) (data : list T) : res (list T) := Ok data.

(** buffers/types/*.rs [From<&mut [T]>], [From<&[T]>], [From<[T; TOTAL]>], e.g.
    temporary_pht_matrix_buffer.rs:50-57 and 67-76, estimate_covariance_matrix_buffer.rs:37-57,
    and buffers/macros.rs:62-76 for vectors (COLS = 1: there the check is [ROWS <= len]). *)
Definition buffer_from (ROWS COLS : nat) (data : list T) : res (list T) :=
  if no_assert c then Ok data
  else if debug_assertions c then
    l <- umul c ROWS COLS ;;
    _ <- assert_ (l <=? length data) ;;
    Ok data
  else Ok data.

(** buffers/builder.rs, the matrix builders' [new_with], e.g. 281-293: a boxed
    buffer of ROWS*COLS copies of [init] *)
Definition build_matrix (ROWS COLS : nat) (init : T) : res (list T) :=
  l <- umul c ROWS COLS ;;
  boxed_new ROWS COLS (repeat init l).

(** buffers/builder.rs, the vector builders' [new_with], e.g. 228-240: an array
    [[init; ROWS]] passed to [new_array] *)
Definition build_vector (ROWS : nat) (init : T) : res (list T) :=
  array_new_unchecked ROWS 1 (repeat init ROWS).

(** [m[index]], [m[index] = v]: matrix_data_array.rs:74-92, matrix_data_boxed.rs:91-105,
    matrix_data_ref.rs:72-79, matrix_data_mut.rs:104-120 (index into the backing slice) *)
Definition index_get (m : list T) (index : nat) : res T := rd m index.
Definition index_set (m : list T) (index : nat) (v : T) : res (list T) := wr m index v.

(** [into_inner]: matrix_data_array.rs:41-43, matrix_data_boxed.rs:39-41, matrix_data_ref.rs:22-24,
    matrix_data_mut.rs:29-31: the backing data *)
Definition into_inner (m : list T) : list T := m.

(** matrix/nalgebra_support.rs:40-71: the [RawStorage] view.  Cell (i, j) is at
    [ptr + i * RStride + j * CStride] with strides (COLS, 1) (45-46); the contiguous
    slice ([as_slice_unchecked], 69-71) spans ROWS*COLS elements from [ptr]. *)
Definition nalgebra_offset (ROWS COLS i j : nat) : nat := i * COLS + j * 1.
Definition nalgebra_slice_len (ROWS COLS : nat) : nat := ROWS * COLS.

End Storage.
