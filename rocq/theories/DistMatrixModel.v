(** Model of BuildDistanceMatrixParallel/Serial, include/arc_utilities/arc_helpers.hpp:484-560.  An Eigen matrix
    under construction is the list of writes made so far, latest first; entries not written are uninitialised. *)
From Verif Require Import Base.

Section M.
Context {D : Type}.
Variable zero : D.

Definition write := ((nat * nat) * D)%type.

(** Entry (i, j) after the writes [ws], latest write last; [None] is an uninitialised double. *)
Fixpoint entry_after (ws : list write) (i j : nat) : option D :=
  match ws with
  | [] => None
  | ((i', j'), d) :: ws' =>
      match entry_after ws' i j with
      | Some d' => Some d'
      | None => if (i =? i') && (j =? j') then Some d else None
      end
  end.

(** Writing outside a rows x cols matrix: Eigen asserts when assertions are on, otherwise it is undefined. *)
Definition apply_writes (dbg : bool) (rows cols : nat) (ws : list write) : outcome (nat -> nat -> option D) :=
  if forallb (fun w : write => (fst (fst w) <? rows) && (snd (fst w) <? cols)) ws then Ok (entry_after ws)
  else if dbg then AssertFail else UB.

(** 491-503, 532-543: one iteration of the outer loop, one data set. *)
Definition row_writes {A} (data : list A) (dist : A -> A -> D) (idx : nat) : list write :=
  flat_map (fun jdx =>
    match nth_error data idx, nth_error data jdx with
    | Some x, Some y =>
        let d := if idx =? jdx then zero else dist x y in
        [((idx, jdx), d); ((jdx, idx), d)]
    | _, _ => []
    end) (seq idx (length data - idx)).

(** 484-505, 526-544.  [order] is the sequence in which the writes happen. *)
Definition serial_writes {A} (data : list A) (dist : A -> A -> D) : list write :=
  flat_map (row_writes data dist) (seq 0 (length data)).

(** 513-522, 552-558: one iteration of the outer loop, two data sets. *)
Definition row_writes2 {A B} (data1 : list A) (data2 : list B) (dist : A -> B -> D) (idx : nat) : list write :=
  flat_map (fun jdx =>
    match nth_error data1 idx, nth_error data2 jdx with
    | Some x, Some y => [((idx, jdx), dist x y); ((jdx, idx), dist x y)]
    | _, _ => []
    end) (seq 0 (length data2)).
Definition serial_writes2 {A B} (data1 : list A) (data2 : list B) (dist : A -> B -> D) : list write :=
  flat_map (row_writes2 data1 data2 dist) (seq 0 (length data1)).

(** The matrix of 546-560 is data1.size() x data1.size() (551). *)
Definition matrix2_serial {A B} (dbg : bool) (data1 : list A) (data2 : list B) (dist : A -> B -> D) :
  outcome (nat -> nat -> option D) :=
  apply_writes dbg (length data1) (length data1) (serial_writes2 data1 data2 dist).
End M.
