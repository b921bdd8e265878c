(** Model of src/arc_utilities/time_optimal_trajectory_parametrization.cpp (and its header) over the real numbers: doubles
    are reals, so rounding is not modelled; a division by zero is modelled where the code can reach one.
    An [Eigen::VectorXd] of [n] entries is a function from the index; only the entries below [n] mean anything. *)
From Coq Require Import Reals Lra.
From Verif Require Import Base MathModel.
Open Scope R_scope.

Definition vec := nat -> R.
Definition vadd (u v : vec) : vec := fun i => u i + v i.
Definition vsub (u v : vec) : vec := fun i => u i - v i.
Definition vscale (c : R) (u : vec) : vec := fun i => c * u i.
Definition vzero : vec := fun _ => 0.
(** Eigen's dot product and norm. *)
Fixpoint dot (n : nat) (u v : vec) : R :=
  match n with O => 0 | S k => dot k u v + u k * v k end.
Definition norm (n : nat) (u : vec) : R := sqrt (dot n u u).
(** Eigen's normalized(): a zero vector is returned unchanged (Eigen 3.3 and later). *)
Definition normalized (n : nat) (u : vec) : vec :=
  if Rltb 0 (dot n u u) then fun i => u i / norm n u else u.

(** std::atan2 over the reals. *)
Definition atan2 (y x : R) : R :=
  if Rltb 0 x then atan (y / x)
  else if Rltb x 0 then (if Rleb 0 y then atan (y / x) + PI else atan (y / x) - PI)
  else if Rltb 0 y then PI / 2 else if Rltb y 0 then - (PI / 2) else 0.

(** 0.000001: the tolerance of the segment constructors (40, 50, 127) and Trajectory::eps (218). *)
Definition tol : R := / 1000000.

(** 7-109: LinearPathSegment(start, end) and CircularPathSegment with its members length_, radius_, center_, x_ and y_. *)
Inductive segment :=
| Linear (a b : vec)
| Arc (len rad : R) (ctr x y : vec).

(** 10, 20: Length(). *)
Definition seg_len (n : nat) (g : segment) : R :=
  match g with Linear a b => norm n (vsub b a) | Arc len _ _ _ _ => len end.

(** 12-15, 70-73: GetConfig.  [None] is a vector of NaN: on a linear segment of length zero the ratio is 0/0 at [s = 0] and an
    infinity (clamped to an end) elsewhere.  EigenHelpers::Interpolate is eigen_helpers.hpp 270-282; the size check is not
    modelled (all waypoints have [n] entries).  The radius of an arc built by [blend] is never zero. *)
Definition seg_config (n : nat) (g : segment) (s : R) : option vec :=
  match g with
  | Linear a b =>
      let l := norm n (vsub b a) in
      if Reqb l 0 then (if Reqb s 0 then None else if Rltb s 0 then Some a else Some b)
      else let r := unit_interval (s / l) in Some (fun i => a i * (1 - r) + b i * r)
  | Arc _ rad ctr x y => Some (fun i => ctr i + rad * (x i * cos (s / rad) + y i * sin (s / rad)))
  end.

(** 17-20, 75-78: GetTangent; 0/0 on a linear segment of length zero. *)
Definition seg_tangent (n : nat) (g : segment) (s : R) : option vec :=
  match g with
  | Linear a b =>
      let l := norm n (vsub b a) in
      if Reqb l 0 then None else Some (fun i => (b i - a i) / l)
  | Arc _ rad _ x y => Some (fun i => - x i * sin (s / rad) + y i * cos (s / rad))
  end.

(** 22-25, 80-83: GetCurvature. *)
Definition seg_curvature (n : nat) (g : segment) (s : R) : option vec :=
  match g with
  | Linear a b => Some vzero
  | Arc _ rad _ x y => Some (fun i => - 1 / rad * (x i * cos (s / rad) + y i * sin (s / rad)))
  end.

(** std::list::sort on doubles. *)
Fixpoint sort_insert (a : R) (l : list R) : list R :=
  match l with [] => [a] | b :: l' => if Rleb a b then a :: l else b :: sort_insert a l' end.
Definition sort_list (l : list R) : list R := fold_right sort_insert [] l.

(** 85-100, 27: GetSwitchingPoints. *)
Definition arc_point (rad : R) (x y : vec) (i : nat) : R :=
  let a := atan2 (y i) (x i) in (if Rltb a 0 then a + PI else a) * rad.
Definition seg_switching (n : nat) (g : segment) : list R :=
  match g with
  | Linear _ _ => []
  | Arc len rad _ x y =>
      sort_list (filter (fun p => Rltb p len) (map (arc_point rad x y) (seq 0 n)))
  end.

(** 38-68: the constructor of CircularPathSegment.  [None]: the two directions are exactly opposite, where the code divides by
    cos(pi/2); with reals that is a division by zero and the case is left out of the model. *)
Definition degenerate (m : vec) : segment := Arc 0 1 m vzero vzero.
Definition blend (n : nat) (a m b : vec) (dev : R) : option segment :=
  if Rltb (norm n (vsub m a)) tol || Rltb (norm n (vsub b m)) tol then Some (degenerate m)
  else
    let sd := normalized n (vsub m a) in
    let ed := normalized n (vsub b m) in
    if Rltb (norm n (vsub sd ed)) tol then Some (degenerate m)
    else
      let dist := Rmin (norm n (vsub a m)) (norm n (vsub b m)) in
      let angle := acos (dot n sd ed) in
      let h := / 2 * angle in
      if Reqb (cos h) 0 then None
      else
        let limited := dev * sin h / (1 - cos h) in
        let d := Rmin dist limited in
        let rad := d / tan h in
        let ctr := vadd m (fun i => normalized n (vsub ed sd) i * rad / cos h) in
        let x := normalized n (vsub (vsub m (vscale d sd)) ctr) in
        Some (Arc (angle * rad) rad ctr x sd).

Definition mid (u v : vec) : vec := fun i => / 2 * (u i + v i).

(** 120-138: the first loop of Path::Path; [c1] is *config1, [start] is start_config, the list starts at config2. *)
Fixpoint path_segments (n : nat) (dev : R) (c1 start : vec) (rest : list vec) : option (list segment) :=
  match rest with
  | [] => Some []
  | c2 :: rest' =>
      match rest' with
      | c3 :: _ =>
          if Rltb 0 dev then
            match blend n (mid c1 c2) c2 (mid c2 c3) dev with
            | None => None
            | Some g =>
                match seg_config n g 0, seg_config n g (seg_len n g) with
                | Some e, Some start' =>
                    match path_segments n dev c2 start' rest' with
                    | None => None
                    | Some l =>
                        Some ((if Rltb tol (norm n (vsub e start)) then [Linear start e] else []) ++ g :: l)
                    end
                | _, _ => None
                end
            end
          else
            match path_segments n dev c2 c2 rest' with
            | None => None
            | Some l => Some (Linear start c2 :: l)
            end
      | [] => Some [Linear start c2]
      end
  end.

(** 149-151: pop switching points at or past the new length; the list is kept back first. *)
Fixpoint pop_past (len : R) (sw : list (R * bool)) : list (R * bool) :=
  match sw with
  | (p, d) :: sw' => if Rleb len p then pop_past len sw' else sw
  | [] => []
  end.

(** 141-153: the second loop: positions of the segments, total length and switching points (back first). *)
Fixpoint place (n : nat) (len : R) (sw : list (R * bool)) (l : list segment) : list (R * segment) * R * list (R * bool) :=
  match l with
  | [] => ([], len, sw)
  | g :: l' =>
      let sw1 := rev (map (fun p => (len + p, false)) (seg_switching n g)) ++ sw in
      let len' := len + seg_len n g in
      let sw2 := (len', true) :: pop_past len' sw1 in
      let '(ps, total, sw3) := place n len' sw2 l' in
      ((len, g) :: ps, total, sw3)
  end.

(** The members of Path: path_segments_ with their positions, length_, switching_points_ in list order. *)
Record path := Path { p_segs : list (R * segment); p_len : R; p_switch : list (R * bool) }.

(** 111-155: Path::Path. *)
Definition path_make (n : nat) (ws : list vec) (dev : R) : option path :=
  match ws with
  | w0 :: (_ :: _) as rest =>
      match path_segments n dev w0 w0 rest with
      | None => None
      | Some l =>
          let '(ps, total, sw) := place n 0 [] l in
          Some (Path ps total (rev (tl sw)))
      end
  | _ => Some (Path [] 0 [])
  end.

(** 172-182: GetPathSegment: the segment and the position along it.  Dereferencing the end iterator of an empty list is
    undefined behaviour. *)
Fixpoint find_segment (cur : R * segment) (l : list (R * segment)) (s : R) : R * segment :=
  match l with
  | nxt :: l' => if Rleb (fst nxt) s then find_segment nxt l' s else cur
  | [] => cur
  end.
Definition path_segment (p : path) (s : R) : outcome (segment * R) :=
  match p_segs p with
  | [] => UB
  | c :: l => let '(pos, g) := find_segment c l s in Ok (g, s - pos)
  end.

(** 184-200: GetConfig, GetTangent, GetCurvature. *)
Definition path_config (n : nat) (p : path) (s : R) : outcome (option vec) :=
  let! (g, u) := path_segment p s in Ok (seg_config n g u).
Definition path_tangent (n : nat) (p : path) (s : R) : outcome (option vec) :=
  let! (g, u) := path_segment p s in Ok (seg_tangent n g u).
Definition path_curvature (n : nat) (p : path) (s : R) : outcome (option vec) :=
  let! (g, u) := path_segment p s in Ok (seg_curvature n g u).

(** 202-214: GetNextSwitchingPoint: the point and the discontinuity flag. *)
Fixpoint next_switching (len : R) (l : list (R * bool)) (s : R) : R * bool :=
  match l with
  | (p, d) :: l' => if Rleb p s then next_switching len l' s else (p, d)
  | [] => (len, true)
  end.
Definition path_next_switching (p : path) (s : R) : R * bool := next_switching (p_len p) (p_switch p) s.
