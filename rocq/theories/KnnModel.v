(** Model of GetKNearestNeighborsSerial and GetKNearestNeighborsParallel,
    include/arc_utilities/arc_helpers.hpp:562-667.  Distances are costs (Cost.v); [isinf] is std::isinf. *)
From Verif Require Import Base Cost.

Section K.
Context {Item : Type} (C : cost).
Variable isinf : C -> bool.
Variable dist : Item -> C.   (* distance_fn(item, current) *)

Notation entry := (Z * C)%type.

(** The initial entries: index -1, infinite distance (577, 643). *)
Definition sentinel : entry := ((-1)%Z, cinf).

(** std::max_element with compare_fn (569-572, 591, 613, 649): position of the first greatest entry. *)
Fixpoint max_from (best : nat) (bd : C) (i : nat) (l : list entry) : nat :=
  match l with
  | [] => best
  | e :: l' => if cltb bd (snd e) then max_from i (snd e) (S i) l' else max_from best bd (S i) l'
  end.
Definition max_pos (l : list entry) : nat := match l with [] => 0 | e :: l' => max_from 0 (snd e) 1 l' end.

(** 591-596, 613-618, 649-654: replace the worst entry if the new one is strictly better. *)
Definition offer (l : list entry) (e : entry) : list entry :=
  let p := max_pos l in
  match nth_error l p with
  | Some w => if cltb (snd e) (snd w) then upd l p e else l
  | None => l
  end.

Definition entry_of (items : list Item) (i : nat) : list entry :=
  match nth_error items i with Some x => [(Z.of_nat i, dist x)] | None => [] end.

(** The branch for no more than K items (621-630, 657-666): every item, in order. *)
Definition all_entries (items : list Item) : list entry := flat_map (entry_of items) (seq 0 (length items)).

(** 633-667 GetKNearestNeighborsSerial. *)
Definition knn_serial (items : list Item) (K : nat) : list entry :=
  if K =? 0 then []
  else if K <? length items then fold_left offer (all_entries items) (repeat sentinel K)
  else all_entries items.

(** 603-619: merging one thread's entry into the result. *)
Definition merge_one (K : nat) (acc : list entry) (e : entry) : list entry :=
  if negb (isinf (snd e)) && negb (fst e =? -1)%Z then
    if length acc <? K then acc ++ [e] else offer acc e
  else acc.

(** 562-631 GetKNearestNeighborsParallel.  [schedule] lists, for each thread, the loop iterations it executes in
    the order it executes them; each thread only touches its own entries. *)
Definition knn_parallel (schedule : list (list nat)) (items : list Item) (K : nat) : list entry :=
  if K =? 0 then []
  else if K <? length items then
    let per_thread := map (fun is => fold_left offer (flat_map (entry_of items) is) (repeat sentinel K)) schedule in
    fold_left (merge_one K) (concat per_thread) []
  else all_entries items.
End K.
Arguments sentinel {C}. Arguments max_from {C}. Arguments max_pos {C}. Arguments offer {C}. Arguments entry_of {Item C}.
Arguments all_entries {Item C}. Arguments knn_serial {Item C}. Arguments merge_one {C}. Arguments knn_parallel {Item C}.
