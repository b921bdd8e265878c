(** Model of CalculateTotalDistance, CalculateIndividualDistances and CalculateCumulativeDistances of include/arc_utilities/eigen_helpers.hpp (365-401) in IEEE double
    arithmetic (round to nearest even, products and sums not contracted to one operation).  The loops over idx are recursions that carry points[idx - 1]. *)
From Verif Require Import Base VoxelFloat DynGridFloat VoxelMakeModel InterpFloatModel AvgFloatModel EigenFloatModel.
From Flocq Require Import IEEE754.Bits IEEE754.Binary.

(** norm() of a Vector3d of Eigen 3.3: its sum of three terms is a0 + (a1 + a2). *)
Definition norm3 (d : t3 fl) : fl :=
  b64_sqrt NE (b64_plus NE (b64_mult NE (ax d) (ax d)) (b64_plus NE (b64_mult NE (ay d) (ay d)) (b64_mult NE (az d) (az d)))).
(** points[idx] - points[idx - 1] *)
Definition minus3 (q p : t3 fl) : t3 fl := T3 (b64_minus NE (ax q) (ax p)) (b64_minus NE (ay q) (ay p)) (b64_minus NE (az q) (az p)).
(** 369, 382 and 395: the length of a step. *)
Definition delta (p q : t3 fl) : fl := norm3 (minus3 q p).

(** 368-371 *)
Fixpoint total_from (distance : fl) (prev : t3 fl) (l : list (t3 fl)) : fl :=
  match l with [] => distance | p :: l => total_from (b64_plus NE distance (delta prev p)) p l end.
(** 365-374: CalculateTotalDistance. *)
Definition total_distance (points : list (t3 fl)) : fl := match points with [] => f_zero | p :: l => total_from f_zero p l end.
(** 381-383 *)
Fixpoint individual_from (prev : t3 fl) (l : list (t3 fl)) : list fl :=
  match l with [] => [] | p :: l => delta prev p :: individual_from p l end.
(** 376-387: CalculateIndividualDistances. *)
Definition individual_distances (points : list (t3 fl)) : list fl := match points with [] => [] | p :: l => f_zero :: individual_from p l end.
(** 394-397 *)
Fixpoint cumulative_from (distance : fl) (prev : t3 fl) (l : list (t3 fl)) : list fl :=
  match l with [] => [] | p :: l => let d := b64_plus NE distance (delta prev p) in d :: cumulative_from d p l end.
(** 389-401: CalculateCumulativeDistances. *)
Definition cumulative_distances (points : list (t3 fl)) : list fl := match points with [] => [] | p :: l => f_zero :: cumulative_from f_zero p l end.
