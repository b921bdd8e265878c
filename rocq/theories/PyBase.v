(** Vocabulary of the model of the Python package src/arc_utilities: what running a piece of Python can do. *)
From Verif Require Export Base.

(** The exception classes that matter. *)
Inductive pyexn :=
| TypeError | ValueError | AttributeError | IndexError | KeyError | PyRuntimeError | ZeroDivisionError | PyAssertionError
| NotImplementedError | NotADirectoryError | FileNotFoundError | FileExistsError | DirectoryNotEmpty | TimeoutError | StopIteration | OverflowError | KeyboardInterrupt | OtherError.

(** A call returns or raises; [NoEnd] is a loop or recursion still going when the model's fuel ran out. *)
Inductive py (A : Type) := Ret (a : A) | Raise (e : pyexn) | NoEnd.
Arguments Ret {A} a.
Arguments Raise {A} e.
Arguments NoEnd {A}.

Definition pbind {A B} (x : py A) (f : A -> py B) : py B :=
  match x with Ret a => f a | Raise e => Raise e | NoEnd => NoEnd end.
Notation "'let?' x ':=' e 'in' k" := (pbind e (fun x => k))
  (at level 200, x pattern, e at level 200, k at level 200, right associativity).
