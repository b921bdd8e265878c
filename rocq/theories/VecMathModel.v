(** Model of vector_math.hpp on vectors of signed integers, and of the standard deviation in math_helpers.hpp. *)
From Verif Require Import Base MathModel VoxelFloat.
From Flocq Require Import IEEE754.Bits IEEE754.Binary Core.
From Coq Require Import Reals.

(** A signed integer type of [w] bits: int (32), int64_t (64).  Narrower types are promoted by the language and are not modelled. *)
Definition int_fits (w z : Z) : bool := ((- 2 ^ (w - 1) <=? z) && (z <? 2 ^ (w - 1)))%Z.
(** Arithmetic on the type: overflow is undefined. *)
Definition int_ck (w z : Z) : outcome Z := if int_fits w z then Ok z else UB.
(** double to the type: truncation; undefined when the value does not fit. *)
Definition int_of_double (w : Z) (x : fl) : outcome Z := if is_finite 53 1024 x then int_ck w (Btrunc 53 1024 x) else UB.

(** The loop over idx, shared by the functions below. *)
Fixpoint each {A} (f : A -> outcome Z) (l : list A) : outcome (list Z) :=
  match l with [] => Ok [] | a :: l => let! b := f a in let! bs := each f l in Ok (b :: bs) end.
(** The functions of two vectors: nothing when the sizes differ. *)
Definition each2 (f : Z -> Z -> outcome Z) (v1 v2 : list Z) : outcome (list Z) :=
  if (length v1 =? length v2)%nat then each (fun p => f (fst p) (snd p)) (combine v1 v2) else Ok [].

(** vector_math.hpp:54-61 Abs (std::abs of the smallest value overflows). *)
Definition vm_abs (w : Z) (v : list Z) : outcome (list Z) := each (fun a => int_ck w (Z.abs a)) v.
(** 63-71 Multiply by a scalar, already a double. *)
Definition vm_scale (w : Z) (v : list Z) (scalar : fl) : outcome (list Z) := each (fun a => int_of_double w (b64_mult NE (f_of_Z a) scalar)) v.
(** 63-71 Multiply by an integer scalar: [element * scalar] converts it to double. *)
Definition vm_scale_int (w : Z) (v : list Z) (scalar : Z) : outcome (list Z) := vm_scale w v (f_of_Z scalar).
(** 73-86 Multiply of two vectors: both elements are converted to double. *)
Definition vm_multiply (w : Z) (v1 v2 : list Z) : outcome (list Z) := each2 (fun a b => int_of_double w (b64_mult NE (f_of_Z a) (f_of_Z b))) v1 v2.
(** 88-92 Divide by a scalar: multiply by 1.0 / scalar. *)
Definition vm_divide_by (w : Z) (v : list Z) (scalar : Z) : outcome (list Z) := vm_scale w v (b64_div NE f_one (f_of_Z scalar)).
(** 94-107 Divide of two vectors, in the type. *)
Definition vm_divide (w : Z) (v1 v2 : list Z) : outcome (list Z) := each2 (fun a b => if (b =? 0)%Z then UB else int_ck w (Z.quot a b)) v1 v2.
(** 109-116 Add of a scalar.  (118-131, Add of two vectors, returns std::vector<double> and does not compile for other types.) *)
Definition vm_add_scalar (w : Z) (v : list Z) (scalar : Z) : outcome (list Z) := each (fun a => int_ck w (a + scalar)%Z) v.
(** 133-140 Sub of a scalar. *)
Definition vm_sub_scalar (w : Z) (v : list Z) (scalar : Z) : outcome (list Z) := each (fun a => int_ck w (a - scalar)%Z) v.
(** 142-155 Sub of two vectors. *)
Definition vm_sub (w : Z) (v1 v2 : list Z) : outcome (list Z) := each2 (fun a b => int_ck w (a - b)%Z) v1 v2.
(** 157-165 Sum. *)
Fixpoint sum_from (w : Z) (sum : Z) (v : list Z) : outcome Z :=
  match v with [] => Ok sum | a :: v => let! s := int_ck w (sum + a)%Z in sum_from w s v end.
Definition vm_sum (w : Z) (v : list Z) : outcome Z := sum_from w 0 v.

Open Scope R_scope.
(** math_helpers.hpp:281-294 ComputeStdDevStdVectorDouble about a given mean, over the reals.  With asserts off and no values,
    size() - 1 wraps around to 2^64 - 1, the sum is zero, and so is the result. *)
Fixpoint square_sum (mean sum : R) (values : list R) : R :=
  match values with [] => sum | x :: values => let delta := x - mean in square_sum mean (sum + delta * delta) values end.
Definition std_dev_about (dbg : bool) (values : list R) (mean : R) : outcome R :=
  cassert dbg (0 <? length values)%nat (
  if (length values =? 1)%nat then Ok 0
  else
    let n_minus_1 := match values with [] => 18446744073709551615 | _ => INR (length values - 1) end in
    let inv_n_minus_1 := 1 / n_minus_1 in
    let stddev_sum := square_sum mean 0 values in
    Ok (sqrt (stddev_sum * inv_n_minus_1))).
(** math_helpers.hpp:296-299 ComputeStdDevStdVectorDouble. *)
Definition std_dev (dbg : bool) (values : list R) : outcome R :=
  let! mean := average dbg values [] in std_dev_about dbg values mean.
