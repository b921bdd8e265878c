(** Model of src/arc_utilities/algorithms.py.  Dictionaries are lists of key-value pairs in insertion order, generators are the list of what
    they yield and how they end.  Aliasing between the arguments is not modelled. *)
From Verif Require Import PyBase.

Section Alg.
  Context {K A : Type} (keq : K -> K -> bool).

  (** Python values: mappings, and other objects, which have neither [get] nor item assignment (numbers, strings, tuples). *)
  Inductive pv := PLeaf (a : A) | PDict (d : list (K * pv)).

  (** dict.get(k). *)
  Fixpoint dget (d : list (K * pv)) (k : K) : option pv :=
    match d with [] => None | (k', v) :: d' => if keq k' k then Some v else dget d' k end.
  (** d[k] = v: an existing key keeps its place, a new one goes last. *)
  Fixpoint dset (d : list (K * pv)) (k : K) (v : pv) : list (K * pv) :=
    match d with [] => [(k, v)] | (k', v') :: d' => if keq k' k then (k', v) :: d' else (k', v') :: dset d' k v end.

  (** 6-20: nested_dict_update.  Gives the base as it is left (it is changed in place) and the exception raised, if any.  [update_dict] is
      a mapping here; None (12-13) is [nested_update_opt]. *)
  Fixpoint nested_update (base : pv) (update : pv) : pv * option pyexn :=
    match update with
    | PLeaf _ => (base, Some AttributeError)               (* 14: update_dict.items() *)
    | PDict u =>
        (fix go (base : pv) (u : list (K * pv)) : pv * option pyexn :=
           match u with
           | [] => (base, None)
           | (k, v) :: u' =>
               match v with
               | PDict _ =>
                   match base with
                   | PLeaf _ => (base, Some AttributeError)   (* 16: base_dict.get *)
                   | PDict d =>
                       let (r, e) := nested_update (match dget d k with Some x => x | None => PDict [] end) v in
                       match e with None => go (PDict (dset d k r)) u' | Some _ => (PDict (dset d k r), e) end
                   end
               | PLeaf _ =>
                   match base with
                   | PLeaf _ => (base, Some TypeError)        (* 18: item assignment *)
                   | PDict d => go (PDict (dset d k v)) u'
                   end
               end
           end) base u
    end.
  Definition nested_update_opt (base : pv) (update : option pv) : pv * option pyexn :=
    match update with None => (base, None) | Some u => nested_update base u end.
End Alg.
Arguments pv : clear implicits.
Arguments PLeaf {K A}.
Arguments PDict {K A}.

Section Lists.
  Context {A : Type}.

  (** 23-25: is_list_unique; [eqb] is the equality of the elements, which set() uses together with their hashes. *)
  Fixpoint to_set (eqb : A -> A -> bool) (x : list A) : list A :=
    match x with [] => [] | a :: x' => let s := to_set eqb x' in if existsb (eqb a) s then s else a :: s end.
  Definition is_list_unique (eqb : A -> A -> bool) (x : list A) : bool := length x =? length (to_set eqb x).

  (** 28-35: repeat_last: the [i]-th value it yields; an empty list raises at the first. *)
  Definition repeat_last (x : list A) (i : nat) : py A :=
    match x with
    | [] => Raise PyRuntimeError
    | x0 :: _ => Ret (nth i x (last x x0))
    end.

  (** next() of the zip: one value of each, from the first argument on. *)
  Fixpoint zip_next (args : list (list A)) (i : nat) : py (list A) :=
    match args with
    | [] => Ret []
    | x :: args' => let? a := repeat_last x i in let? r := zip_next args' i in Ret (a :: r)
    end.

  Fixpoint yield_rows (args : list (list A)) (i n : nat) : list (list A) * option pyexn :=
    match n with
    | O => ([], None)
    | S n' =>
        match zip_next args i with
        | Ret row => let (rows, e) := yield_rows args (S i) n' in (row :: rows, e)
        | Raise e => ([], Some e)
        | NoEnd => ([], None)
        end
    end.

  (** 38-42: zip_repeat_shorter.  The maximum (39) is called with one argument per list: with a single list the argument
      is a number, which is not iterable, and with none there is no argument. *)
  Definition zip_repeat_shorter (args : list (list A)) : list (list A) * option pyexn :=
    match args with
    | [] | [_] => ([], Some TypeError)
    | _ => yield_rows args 0 (fold_right Nat.max 0 (map (@length A) args))
    end.

  (** 45-62: chunked_drop_last.  [size] is an int; itertools.islice refuses a negative one. *)
  Fixpoint chunk_loop (fuel : nat) (it : list A) (size : nat) : list (list A) :=
    match fuel with
    | O => []
    | S f =>
        let chunk := firstn size it in
        match chunk with
        | [] => []
        | _ => if length chunk =? size then chunk :: chunk_loop f (skipn size it) size else []
        end
    end.
  Definition chunked_drop_last (it : list A) (size : Z) : list (list A) * option pyexn :=
    if (size <? 0)%Z then ([], Some ValueError) else (chunk_loop (S (length it)) it (Z.to_nat size), None).

  (** 65-79: reversed_chunked.  range(len(seq), n - 1, -n): with n = 0 the step is 0, with n < 0 it goes up and starts behind its end. *)
  Definition slice (seq : list A) (start stop : nat) : list A := firstn (stop - start) (skipn start seq).
  Fixpoint rev_chunk_loop (fuel : nat) (seq : list A) (n stop : nat) (chunks : list (list A)) : list (list A) :=
    match fuel with
    | O => chunks
    | S f => if n - 1 <? stop then rev_chunk_loop f seq n (stop - n) (slice seq (stop - n) stop :: chunks) else chunks
    end.
  Definition reversed_chunked (seq : list A) (n : Z) : py (list (list A)) :=
    if (n =? 0)%Z then Raise ValueError
    else if (n <? 0)%Z then Ret []
    else Ret (rev_chunk_loop (S (length seq)) seq (Z.to_nat n) (length seq) []).
End Lists.
