(** Model of the map helpers and CheckAllStringsForSubstring of include/arc_utilities/arc_helpers.hpp (179-199, 1283-1348). *)
From Coq Require Import List Bool Arith NArith.
From Verif Require Import Base.
Import ListNotations.

Section Map.
Context {K V : Type} (lt : K -> K -> bool).
(** std::map: the entries in the order of its iterators.  Two keys are equivalent when neither is less than the other. *)
Definition smap := list (K * V).
(** map[k] = v: assigns to the entry with an equivalent key, which keeps its key, or inserts a new entry in order. *)
Fixpoint put (m : smap) (k : K) (v : V) : smap :=
  match m with
  | [] => [(k, v)]
  | (k', v') :: m' => if lt k' k then (k', v') :: put m' k v else if lt k k' then (k, v) :: m else (k', v) :: m'
  end.
(** map.find(k). *)
Fixpoint look (m : smap) (k : K) : option V :=
  match m with
  | [] => None
  | (k', v') :: m' => if lt k' k || lt k k' then look m' k else Some v'
  end.
(** 179-188: RetrieveOrDefault of std::map. *)
Definition retrieve_or_default (m : smap) (k : K) (default_val : V) : V := match look m k with Some v => v | None => default_val end.
(** 190-199: RetrieveOrDefault of std::unordered_map; the entries in any order, [eqb] is its Predicate (Hash gives equal keys the same bucket, as required). *)
Definition retrieve_or_default_u (eqb : K -> K -> bool) (m : list (K * V)) (k : K) (default_val : V) : V :=
  match find (fun e => eqb (fst e) k) m with Some e => snd e | None => default_val end.
(** 1294-1306: GetKeys. *)
Definition get_keys (m : smap) : list K := map fst m.
(** 1308-1321: GetKeysAndValues. *)
Definition get_keys_and_values (m : smap) : list (K * V) := map (fun e => (fst e, snd e)) m.
(** 1323-1333: MakeFromKeysAndValues from pairs. *)
Definition make_from_pairs (l : list (K * V)) : smap := fold_left (fun m e => put m (fst e) (snd e)) l [].
(** 1335-1348: MakeFromKeysAndValues from two vectors.  Reading past the end of the values is undefined. *)
Fixpoint make_loop (ks : list K) (vs : list V) (m : smap) : outcome smap :=
  match ks, vs with
  | [], _ => Ok m
  | k :: ks', v :: vs' => make_loop ks' vs' (put m k v)
  | _ :: _, [] => UB
  end.
Definition make_from_vectors (dbg : bool) (ks : list K) (vs : list V) : outcome smap :=
  cassert dbg (length ks =? length vs)%nat (make_loop ks vs []).
End Map.

Section Strings.
Context {C : Type} (eqb : C -> C -> bool).
Fixpoint starts (p s : list C) : bool :=
  match p, s with [], _ => true | a :: p', b :: s' => eqb a b && starts p' s' | _ :: _, [] => false end.
(** std::string::find(substring) != npos. *)
Fixpoint contains (p s : list C) : bool := starts p s || match s with [] => false | _ :: s' => contains p s' end.
(** 1283-1292: CheckAllStringsForSubstring. *)
Fixpoint check_all_substring (l : list (list C)) (p : list C) : bool :=
  match l with [] => true | s :: l' => if contains p s then check_all_substring l' p else false end.
End Strings.
