(** Model of the stream operators of ostream_operators.hpp and moveit_ostream_operators.hpp, and of shape_msgs_builders.hpp.  The state of the stream
    (base, width, locale) is the default one. *)
From Coq Require Import String Ascii.
From Verif Require Import Base PrintModel.
Open Scope string_scope.

(** Types: a whole number, char, std::string, std::vector of T. *)
Inductive sty := SInt | SChar | SString | SVector (t : sty).
Fixpoint svalue (t : sty) : Type := match t with SInt => Z | SChar => ascii | SString => string | SVector t => list (svalue t) end.
Definition newline : string := String (ascii_of_nat 10) "".
(** ostream_operators.hpp 7-18: each element followed by a blank, by a newline when T is std::string. *)
Definition after (t : sty) : string := match t with SString => newline | _ => " " end.
Fixpoint stream (t : sty) : svalue t -> string :=
  match t with
  | SInt => decimal
  | SChar => fun c => String c ""
  | SString => fun s => s
  | SVector t => fix all (l : list (svalue t)) : string := match l with [] => "" | x :: l => stream t x ++ (after t ++ all l) end
  end.

(** A contact: body_name_1 and body_name_2.  A CollisionResult: collision, and the contact map in the order of its keys, the pairs of names. *)
Definition contact := (string * string)%type.
Record collision_result := mkC { collision : bool; contacts : list ((string * string) * list contact) }.
(** moveit_ostream_operators.hpp 6-28. *)
Definition collision_text (cr : collision_result) : string :=
  if negb (collision cr) then "no collision"
  else match contacts cr with
       | [] => "collision found but no contacts reported"
       | (_, cs) :: _ =>
           match cs with
           | [] => ""
           | c :: _ =>
               "collision between " ++ fst c ++ " and " ++ snd c ++
               (if (1 <? length (contacts cr))%nat || (1 <? length cs)%nat then " among others..." ++ newline else "")
           end
       end.

(** shape_msgs_builders.hpp 8-12: MakeMeshTriangle; vertex_indices is an array of three. *)
Definition mesh_triangle (v1 v2 v3 : N) : list N := [v1; v2; v3].
