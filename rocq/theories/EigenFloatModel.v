(** Model of the comparisons and of the distances of points of include/arc_utilities/eigen_helpers.hpp (33-94, 110-118, 309-324) in IEEE double arithmetic (round to
    nearest even, products and sums not contracted to one operation). *)
From Verif Require Import Base VoxelFloat DynGridFloat VoxelMakeModel InterpFloatModel AvgFloatModel.
From Flocq Require Import IEEE754.Bits IEEE754.Binary.

(** a > b on doubles: never with a NaN. *)
Definition f_gt (a b : fl) : bool := match b64_compare a b with Some Gt => true | _ => false end.
(** Eigen::Vector2d, Vector4d; Vector3d is [t3 fl]. *)
Record t2 := T2 { px : fl; py : fl }.
Record t4 := T4 { hx : fl; hy : fl; hz : fl; hw : fl }.

(** 33-39: Equal3d. *)
Definition equal3 (v w : t3 fl) : bool := f_eqb (ax v) (ax w) && f_eqb (ay v) (ay w) && f_eqb (az v) (az w).
(** 41-47: Equal4d. *)
Definition equal4 (v w : t4) : bool := f_eqb (hx v) (hx w) && f_eqb (hy v) (hy w) && f_eqb (hz v) (hz w) && f_eqb (hw v) (hw w).
(** 49-51: CloseEnough of Vector2d, by CloseEnough of doubles. *)
Definition close2 (v w : t2) (threshold : fl) : bool := f_close (px v) (px w) threshold && f_close (py v) (py w) threshold.
(** 53-65: CloseEnough of Vector3d. *)
Definition close3 (v w : t3 fl) (threshold : fl) : bool :=
  let real_threshold := f_abs threshold in
  if f_gt (f_abs (b64_minus NE (ax v) (ax w))) real_threshold then false
  else if f_gt (f_abs (b64_minus NE (ay v) (ay w))) real_threshold then false
  else if f_gt (f_abs (b64_minus NE (az v) (az w))) real_threshold then false
  else true.
(** 67-79: CloseEnough of vectors; 81-94: IsApprox of vectors, with the test of two elements as [test] (isApprox of Eigen). *)
Fixpoint all_pairs {A} (test : A -> A -> bool) (a b : list A) : bool :=
  match a, b with x :: a', y :: b' => if test x y then all_pairs test a' b' else false | _, _ => true end.
Definition each_close {A} (test : A -> A -> bool) (a b : list A) : bool := if (length a =? length b)%nat then all_pairs test a b else false.
Definition close3_vec (a b : list (t3 fl)) (threshold : fl) : bool := each_close (fun v w => close3 v w threshold) a b.

(** 309-313: SquaredDistance of Vector2d. *)
Definition sq2 (v w : t2) : fl :=
  let xd := b64_minus NE (px w) (px v) in let yd := b64_minus NE (py w) (py v) in
  b64_plus NE (b64_mult NE xd xd) (b64_mult NE yd yd).
(** 315: Distance of Vector2d. *)
Definition dist2 (v w : t2) : fl := b64_sqrt NE (sq2 v w).
(** 317-322: SquaredDistance of Vector3d. *)
Definition sq3 (v w : t3 fl) : fl :=
  let xd := b64_minus NE (ax w) (ax v) in let yd := b64_minus NE (ay w) (ay v) in let zd := b64_minus NE (az w) (az v) in
  b64_plus NE (b64_plus NE (b64_mult NE xd xd) (b64_mult NE yd yd)) (b64_mult NE zd zd).
(** 324: Distance of Vector3d. *)
Definition dist3 (v w : t3 fl) : fl := b64_sqrt NE (sq3 v w).

(** 110-118: TransformData; [mul] is the product of the transform with an item. *)
Fixpoint transform_data {A} (mul : A -> A) (data : list A) : list A := match data with [] => [] | x :: r => mul x :: transform_data mul r end.
