(** Model of include/arc_utilities/serialization_eigen.hpp. *)
From Verif Require Import Base SerModel.
From Coq Require Import Strings.Byte.

(** An Eigen matrix: dimensions and coefficients in storage (column-major) order; a coefficient is the bit
    pattern of a double or float. *)
Record ematrix := { em_rows : N; em_cols : N; em_data : list N }.

Section E.
Variables (dbg host_le : bool).
(** Largest number of coefficients that can be allocated. *)
Variable maxr : N.
(** The template arguments: [sc] is sizeof(_Scalar); [sr], [sl] are _Rows and _Cols, [None] for Eigen::Dynamic. *)
Variables (sc : nat) (sr sl : option N).

Definition header_size : nat :=
  (match sr with None => 8 | Some _ => 0 end) + (match sl with None => 8 | Some _ => 0 end).

(** serialization_eigen.hpp:12-28 SerializedSizeEigen; 193-196 for Isometry3d (4x4 doubles). *)
Definition eigen_size (m : ematrix) : nat := header_size + length (em_data m) * sc.

Definition dyn_header (s : option N) (v : N) : list byte :=
  match s with None => mem_of host_le 8 v | Some _ => [] end.

(** serialization_eigen.hpp:32-52 SerializeEigen; 198-206 for Isometry3d. *)
Definition ser_eigen : serializer ematrix :=
  fun m buf =>
    Ok (buf ++ dyn_header sr (em_rows m) ++ dyn_header sl (em_cols m) ++ flat_map (mem_of host_le sc) (em_data m),
        eigen_size m).

(** memcpy into the coefficients: [k] scalars of [sc] bytes each. *)
Fixpoint scalars (k : nat) (l : list byte) : list N :=
  match k with
  | O => []
  | S k' => of_mem host_le (firstn sc l) :: scalars k' (skipn sc l)
  end.

(** Reading a header, when the dimension is dynamic: gives the dimension and the number of bytes used. *)
Definition read_dim (s : option N) (buf : buffer) (cur : nat) : outcome (N * nat) :=
  match s with
  | Some v => Ok (v, 0)
  | None => let! l := read_bytes buf cur 8 in Ok (of_mem host_le l, 8)
  end.

(** Eigen's Zero(rows, cols): a negative dimension (after the cast to ssize_t) fails an eigen_assert, too many
    coefficients throw std::bad_alloc. *)
Definition alloc_zero {A} (rows cols : N) (k : outcome A) : outcome A :=
  if ((rows <? 2 ^ 63) && (cols <? 2 ^ 63))%N then
    if (rows * cols <=? maxr)%N then k else Throw BadAlloc
  else if dbg then AssertFail else UB.

(** serialization_eigen.hpp:70-190 DeserializeEigen for every provided type (Vector3d, Vector6d, Vector7d,
    VectorXd, MatrixXd, Matrix3Xd, Matrix3Xf, MatrixXf) and 208-218 for Isometry3d.  The expression
    [&buffer[current + header]] needs that position to exist even when no byte is copied. *)
Definition de_eigen : deserializer ematrix :=
  fun buf cur =>
    cassert dbg (cur <? length buf)
   (cassert dbg (cur + header_size <=? length buf)
   (let! r := read_dim sr buf cur in
    let! c := read_dim sl buf (cur + snd r) in
    let rows := fst r in
    let cols := fst c in
    alloc_zero rows cols
   (let n := N.to_nat (rows * cols) in
    let size := header_size + n * sc in
    cassert dbg (cur + size <=? length buf)
   (if cur + header_size <? length buf then
      let! l := read_bytes buf (cur + header_size) (n * sc) in
      Ok ({| em_rows := rows; em_cols := cols; em_data := scalars n l |}, size)
    else UB)))).
End E.
