(** Model of src/arc_utilities/first_order_deformation.cpp. *)
From Verif Require Import Base Assoc Cost.
Open Scope Z_scope.

Definition cell := (Z * Z)%type.
Definition cell_eqb (a b : cell) : bool := (fst a =? fst b) && (snd a =? snd b).

(** The loop [for (x = lo; x <= hi; x++)]. *)
Definition span (lo hi : Z) : list Z := map (fun i => lo + Z.of_nat i) (seq 0 (Z.to_nat (hi - lo + 1))).

Section Deform.
Variable rows cols : Z.
Variable valid : Z -> Z -> bool.              (* validity_check_fn *)
Variable D : Type.                            (* double *)
Variable dist : cell -> cell -> D.            (* lines 11-13: ConfigTypeDistance *)
Variable Q : pqueue (cell * D).               (* the frontier; every order of taking elements out is allowed *)

(** first_order_deformation.cpp 15-35: GetNeighbours. *)
Definition neighbours (c : cell) : list cell :=
  let row_min := Z.max 0 (fst c - 1) in
  let row_max := Z.min (rows - 1) (fst c + 1) in
  let col_min := Z.max 0 (snd c - 1) in
  let col_max := Z.min (cols - 1) (snd c + 1) in
  flat_map (fun col => flat_map (fun row =>
    if negb ((row =? fst c) && (col =? snd c)) && valid row col then [(row, col)] else []) (span row_min row_max)) (span col_min col_max).

(** The array [explored] as the list of the cells set; an index out of range is undefined. *)
Definition explored_at (explored : list cell) (c : cell) : outcome bool :=
  if (0 <=? fst c) && (fst c <? rows) && (0 <=? snd c) && (snd c <? cols) then Ok (existsb (cell_eqb c) explored) else UB.

(** 79-88: the loop over the neighbours. *)
Fixpoint expand (explored : list cell) (goal current : cell) (ns : list cell) (frontier : list (cell * D)) (parents : list (cell * cell)) : outcome (list (cell * D) * list (cell * cell)) :=
  match ns with
  | [] => Ok (frontier, parents)
  | n :: ns =>
      let! e := explored_at explored n in
      if e then expand explored goal current ns frontier parents
      else expand explored goal current ns (pq_push Q (n, dist n goal) frontier) (a_set cell_eqb n current parents)
  end.
(** 61-90: the search; [fuel] bounds the iterations.  The result tells whether the goal was taken out. *)
Fixpoint search (fuel : nat) (goal : cell) (frontier : list (cell * D)) (explored : list cell) (parents : list (cell * cell)) : outcome (bool * list cell * list (cell * cell)) :=
  match fuel with
  | O => NoFuel
  | S fuel =>
      match pq_pop Q frontier with
      | None => Ok (false, explored, parents)
      | Some ((current, _), frontier) =>
          if (fst current =? fst goal) && (snd current =? snd goal) then Ok (true, explored, parents)
          else
            let! e := explored_at explored current in
            if e then search fuel goal frontier explored parents
            else
              let explored := current :: explored in
              let! r := expand explored goal current (neighbours current) frontier parents in
              search fuel goal (fst r) explored (snd r)
      end
  end.
(** 93-102: following the parents; operator[] makes a missing parent (0, 0). *)
Fixpoint recover (fuel : nat) (start current : cell) (parents : list (cell * cell)) (acc : list cell) : outcome (list cell) :=
  if cell_eqb current start then Ok (start :: acc)
  else match fuel with
  | O => NoFuel
  | S fuel => recover fuel start (match a_find cell_eqb current parents with Some p => p | None => (0, 0) end) parents (current :: acc)
  end.
(** 37-104: GetFirstOrderDeformation.  Iterations are bounded by 10 for every cell; overflow of the cell count is not modelled. *)
Definition first_order_deformation (dbg : bool) : outcome (list cell) :=
  cassert dbg ((0 <? rows) && (0 <? cols)) (
  if negb ((0 <? rows) && (0 <? cols)) then UB
  else
    let start := (0, 0) in
    let goal := (rows - 1, cols - 1) in
    let! r := search (2 + 10 * Z.to_nat (rows * cols)) goal (pq_push Q (start, dist start goal) []) [] [] in
    let '(found, explored, parents) := r in
    if found then recover (S (length explored)) start goal parents [] else Ok []).
End Deform.
