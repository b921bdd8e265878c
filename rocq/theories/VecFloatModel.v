(** Model of vector_math.hpp on vectors and pairs of double, in IEEE double arithmetic (round to nearest even). *)
From Verif Require Import Base VoxelFloat.
From Flocq Require Import IEEE754.Bits IEEE754.Binary.

(** The functions of two vectors: nothing when the sizes differ; otherwise the loop over idx. *)
Definition vd_each2 (f : fl -> fl -> fl) (v1 v2 : list fl) : list fl :=
  if (length v1 =? length v2)%nat then map (fun p => f (fst p) (snd p)) (combine v1 v2) else [].

(** vector_math.hpp:54-61 Abs. *)
Definition vd_abs (v : list fl) : list fl := map b64_abs v.
(** 63-71 Multiply by a scalar. *)
Definition vd_scale (v : list fl) (scalar : fl) : list fl := map (fun a => b64_mult NE a scalar) v.
(** 73-86 Multiply of two vectors. *)
Definition vd_multiply : list fl -> list fl -> list fl := vd_each2 (b64_mult NE).
(** 88-92 Divide by a scalar: multiply by 1.0 / scalar. *)
Definition vd_divide_by (v : list fl) (scalar : fl) : list fl := vd_scale v (b64_div NE f_one scalar).
(** 94-107 Divide of two vectors. *)
Definition vd_divide : list fl -> list fl -> list fl := vd_each2 (b64_div NE).
(** 109-116 Add of a scalar. *)
Definition vd_add_scalar (v : list fl) (scalar : fl) : list fl := map (fun a => b64_plus NE a scalar) v.
(** 118-131 Add of two vectors. *)
Definition vd_add : list fl -> list fl -> list fl := vd_each2 (b64_plus NE).
(** 133-140 Sub of a scalar. *)
Definition vd_sub_scalar (v : list fl) (scalar : fl) : list fl := map (fun a => b64_minus NE a scalar) v.
(** 142-155 Sub of two vectors. *)
Definition vd_sub : list fl -> list fl -> list fl := vd_each2 (b64_minus NE).
(** 157-165 Sum. *)
Definition vd_sum (v : list fl) : fl := fold_left (fun sum element => b64_plus NE sum element) v (f_of_Z 0).

(** 15-18 Abs of a pair. *)
Definition pd_abs (p : fl * fl) : fl * fl := (b64_abs (fst p), b64_abs (snd p)).
(** 20-23 Multiply of a pair by a scalar. *)
Definition pd_scale (p : fl * fl) (scalar : fl) : fl * fl := (b64_mult NE (fst p) scalar, b64_mult NE (snd p) scalar).
(** 25-28 Multiply of two pairs. *)
Definition pd_multiply (p q : fl * fl) : fl * fl := (b64_mult NE (fst p) (fst q), b64_mult NE (snd p) (snd q)).
(** 30-33 Divide of a pair by a scalar: divides. *)
Definition pd_divide_by (p : fl * fl) (scalar : fl) : fl * fl := (b64_div NE (fst p) scalar, b64_div NE (snd p) scalar).
(** 35-38 Divide of two pairs. *)
Definition pd_divide (p q : fl * fl) : fl * fl := (b64_div NE (fst p) (fst q), b64_div NE (snd p) (snd q)).
(** 40-43 Add of two pairs. *)
Definition pd_add (p q : fl * fl) : fl * fl := (b64_plus NE (fst p) (fst q), b64_plus NE (snd p) (snd q)).
(** 45-48 Sub of two pairs. *)
Definition pd_sub (p q : fl * fl) : fl * fl := (b64_minus NE (fst p) (fst q), b64_minus NE (snd p) (snd q)).
