(** Model of include/arc_utilities/aligned_eigen_types.hpp: Eigen::Aligned4Vector3, a 3D vector kept in the first three entries of a 4D
    vector.  The scalar type is a parameter: its operations, its comparison with one, and the way Eigen adds up four products, which
    depends on the instruction set.  Aliasing of the operands, [data], strides and the expression evaluator are not modelled. *)
From Verif Require Import Base.

(** The scalar type. *)
Record scalar := mkScalar {
  sc : Type; s0 : sc; s1 : sc;
  sadd : sc -> sc -> sc; ssub : sc -> sc -> sc; smul : sc -> sc -> sc; sdiv : sc -> sc -> sc; ssqrt : sc -> sc;
  sis1 : sc -> bool;                       (* == Scalar(1) *)
  ssum4 : sc -> sc -> sc -> sc -> sc       (* the reduction of Matrix<Scalar, 4, 1> *)
}.

Section Aligned.
  Context (K : scalar).
  Notation S := (sc K).

  (** 48: m_coeffs. *)
  Record A4 := mkA { ax : S; ay : S; az : S; aw : S }.

  (** 72: the constructor from three numbers.  74: the default constructor. *)
  Definition a_make (x y z : S) : A4 := mkA x y z (s1 K).
  Definition a_default : A4 := mkA (s0 K) (s0 K) (s0 K) (s1 K).
  (** 76 and 103-106: copies take all four entries. *)
  Definition a_copy (other : A4) : A4 := other.
  (** 82-87 with 98-101, 108-112: construction and assignment from a four entry expression sets the last one to 1. *)
  Definition a_of4 (src : A4) : A4 := mkA (ax src) (ay src) (az src) (s1 K).
  (** 90-95: from a three entry expression. *)
  Definition a_of3 (x y z : S) : A4 := mkA x y z (s1 K).

  (** Entrywise operations of Eigen on Matrix<Scalar, 4, 1>. *)
  Definition map2 (f : S -> S -> S) (a b : A4) : A4 := mkA (f (ax a) (ax b)) (f (ay a) (ay b)) (f (az a) (az b)) (f (aw a) (aw b)).
  Definition map1 (f : S -> S) (a : A4) : A4 := mkA (f (ax a)) (f (ay a)) (f (az a)) (f (aw a)).

  (** 114-116 and 118-121. *)
  Definition a_add (a b : A4) : A4 := a_of4 (map2 (sadd K) a b).
  Definition a_add_assign (a b : A4) : A4 := map2 (sadd K) a b.
  (** 123-125 and 127-130. *)
  Definition a_sub (a b : A4) : A4 := a_of4 (map2 (ssub K) a b).
  Definition a_sub_assign (a b : A4) : A4 := map2 (ssub K) a b.
  (** 132, 134-136 and 138-141. *)
  Definition a_mul (a : A4) (s : S) : A4 := a_of4 (map1 (fun x => smul K x s) a).
  Definition a_mul_left (s : S) (a : A4) : A4 := a_of4 (map1 (fun x => smul K s x) a).
  Definition a_mul_assign (a : A4) (s : S) : A4 := map1 (fun x => smul K x s) a.
  (** 143 and 145-148. *)
  Definition a_div (a : A4) (s : S) : A4 := a_of4 (map1 (fun x => sdiv K x s) a).
  Definition a_div_assign (a : A4) (s : S) : A4 := map1 (fun x => sdiv K x s) a.

  (** 150-154. *)
  Definition a_dot (dbg : bool) (a b : A4) : outcome S :=
    cassert dbg (sis1 K (aw a)) (cassert dbg (sis1 K (aw b))
      (Ok (ssub K (ssum4 K (smul K (ax a) (ax b)) (smul K (ay a) (ay b)) (smul K (az a) (az b)) (smul K (aw a) (aw b))) (s1 K)))).
  (** 160-163. *)
  Definition a_sum (dbg : bool) (a : A4) : outcome S :=
    cassert dbg (sis1 K (aw a)) (Ok (ssub K (ssum4 K (ax a) (ay a) (az a) (aw a)) (s1 K))).
  (** 165-168. *)
  Definition a_squared_norm (dbg : bool) (a : A4) : outcome S :=
    cassert dbg (sis1 K (aw a))
      (Ok (ssub K (ssum4 K (smul K (ax a) (ax a)) (smul K (ay a) (ay a)) (smul K (az a) (az a)) (smul K (aw a) (aw a))) (s1 K))).
  (** 170-173. *)
  Definition a_norm (dbg : bool) (a : A4) : outcome S := let! n := a_squared_norm dbg a in Ok (ssqrt K n).
  (** 156. *)
  Definition a_normalize (dbg : bool) (a : A4) : outcome A4 := let! n := a_norm dbg a in Ok (map1 (fun x => sdiv K x n) a).
  (** 158. *)
  Definition a_normalized (dbg : bool) (a : A4) : outcome A4 := let! n := a_norm dbg a in Ok (a_of4 (map1 (fun x => sdiv K x n) a)).
  (** 175-177: Eigen's cross3 leaves 0 in the last entry. *)
  Definition a_cross (a b : A4) : A4 :=
    a_of4 (mkA (ssub K (smul K (ay a) (az b)) (smul K (az a) (ay b))) (ssub K (smul K (az a) (ax b)) (smul K (ax a) (az b)))
               (ssub K (smul K (ax a) (ay b)) (smul K (ay a) (ax b))) (s0 K)).

  (** Statements of a program whose variables, numbered, are Aligned4Vector3 objects. *)
  Inductive stmt :=
  | SSet (i : nat) (x y z : S)          (* v_i = Aligned4Vector3(x, y, z); *)
  | SCopy (i j : nat)                   (* v_i = v_j; *)
  | SAdd (i j k : nat)                  (* v_i = v_j + v_k; *)
  | SSub (i j k : nat)
  | SMul (i j : nat) (s : S)            (* v_i = v_j * s; *)
  | SMulLeft (i : nat) (s : S) (j : nat)
  | SDiv (i j : nat) (s : S)
  | SFrom3 (i : nat) (x y z : S)         (* v_i = an expression of three entries; *)
  | SCross (i j k : nat)
  | SNormalized (i j : nat)             (* v_i = v_j.normalized(); *)
  | SAddAssign (i j : nat)              (* v_i += v_j; *)
  | SSubAssign (i j : nat)
  | SMulAssign (i : nat) (s : S)
  | SDivAssign (i : nat) (s : S)
  | SNormalize (i : nat).               (* v_i.normalize(); *)

  Definition put {T} (m : nat -> T) (i : nat) (v : T) : nat -> T := fun j => if (j =? i)%nat then v else m j.

  Definition step (dbg : bool) (m : nat -> A4) (c : stmt) : outcome (nat -> A4) :=
    match c with
    | SSet i x y z => Ok (put m i (a_make x y z))
    | SCopy i j => Ok (put m i (a_copy (m j)))
    | SAdd i j k => Ok (put m i (a_add (m j) (m k)))
    | SSub i j k => Ok (put m i (a_sub (m j) (m k)))
    | SMul i j s => Ok (put m i (a_mul (m j) s))
    | SMulLeft i s j => Ok (put m i (a_mul_left s (m j)))
    | SDiv i j s => Ok (put m i (a_div (m j) s))
    | SFrom3 i x y z => Ok (put m i (a_of3 x y z))
    | SCross i j k => Ok (put m i (a_cross (m j) (m k)))
    | SNormalized i j => let! v := a_normalized dbg (m j) in Ok (put m i v)
    | SAddAssign i j => Ok (put m i (a_add_assign (m i) (m j)))
    | SSubAssign i j => Ok (put m i (a_sub_assign (m i) (m j)))
    | SMulAssign i s => Ok (put m i (a_mul_assign (m i) s))
    | SDivAssign i s => Ok (put m i (a_div_assign (m i) s))
    | SNormalize i => let! v := a_normalize dbg (m i) in Ok (put m i v)
    end.

  Fixpoint exec (dbg : bool) (m : nat -> A4) (p : list stmt) : outcome (nat -> A4) :=
    match p with [] => Ok m | c :: p' => let! m' := step dbg m c in exec dbg m' p' end.
End Aligned.
Arguments mkA {K}. Arguments ax {K}. Arguments ay {K}. Arguments az {K}. Arguments aw {K}.
Arguments a_make {K}. Arguments a_copy {K}. Arguments a_of4 {K}. Arguments a_of3 {K}. Arguments a_add {K}. Arguments a_sub {K}.
Arguments a_mul {K}. Arguments a_mul_left {K}. Arguments a_div {K}. Arguments a_cross {K}. Arguments a_add_assign {K}.
Arguments a_sub_assign {K}. Arguments a_mul_assign {K}. Arguments a_div_assign {K}. Arguments a_dot {K}. Arguments a_sum {K}.
Arguments a_squared_norm {K}. Arguments a_norm {K}. Arguments a_normalize {K}. Arguments a_normalized {K}. Arguments step {K}. Arguments exec {K}.
Arguments map1 {K}. Arguments map2 {K}.
Arguments SSet {K}. Arguments SCopy {K}. Arguments SAdd {K}. Arguments SSub {K}. Arguments SMul {K}. Arguments SMulLeft {K}. Arguments SDiv {K}.
Arguments SFrom3 {K}. Arguments SCross {K}. Arguments SNormalized {K}. Arguments SAddAssign {K}. Arguments SSubAssign {K}. Arguments SMulAssign {K}.
Arguments SDivAssign {K}. Arguments SNormalize {K}.
