(** Model of filesystem.hpp (CreateDirectory) and log.hpp (the Log class) over a small file system.  Threads, time and what other programs do
    to the files are not modelled, except that the right to open a file may come and go; writes always succeed. *)
From Coq Require Import String Ascii.
From Verif Require Import Base.

(** A path is its components; an absolute one begins with "/".  "." and ".." (a trailing slash is a "." for Boost) and links are not modelled. *)
Definition path := list string.
Definition path_eqb (p q : path) : bool := if list_eq_dec string_dec p q then true else false.
Definition text := list ascii.
Inductive node := Dir | File (contents : text).
Record disk := mkDisk { nodes : path -> option node; allowed : path -> bool }.
Definition put (d : disk) (p : path) (x : node) : disk := mkDisk (fun q => if path_eqb q p then Some x else nodes d q) (allowed d).
Definition is_directory (d : disk) (p : path) : bool := match p, nodes d p with [], _ => false | _, Some Dir => true | _, _ => false end.

(** boost::filesystem::create_directories: every leading part in turn; an error is thrown (a std::runtime_error) when one is a file or may not
    be made.  For the empty path some versions of Boost throw and some do nothing; the caller throws then. *)
Fixpoint create_directories (d : disk) (made : path) (rest : path) : outcome disk :=
  match rest with
  | [] => Ok d
  | c :: rest =>
      let p := made ++ [c] in
      match nodes d p with
      | Some Dir => create_directories d p rest
      | Some (File _) => Throw RuntimeError
      | None => if allowed d p then create_directories (put d p Dir) p rest else Throw RuntimeError
      end
  end.
(** filesystem.hpp:10-28 CreateDirectory (the messages on std::cout are not modelled). *)
Definition create_directory (d : disk) (p : path) : outcome disk :=
  if is_directory d p then Ok d
  else
    let! d := create_directories d [] p in
    if is_directory d p then Ok d else Throw RuntimeError.

(** std::ofstream: closed, or open on a file, appending or at a position of its own. *)
Inductive stream := Closed | Opened (app : bool) (file : path) (pos : nat).
(** open(name, out | trunc) and open(name, out | app): the directory must be there and the name must not be one. *)
Definition open_stream (d : disk) (p : path) (app : bool) : disk * stream :=
  if negb (is_directory d (removelast p) && allowed d p) then (d, Closed)
  else match nodes d p with
       | Some Dir => (d, Closed)
       | Some (File c) => if app then (d, Opened true p (length c)) else (put d p (File []), Opened false p 0)
       | None => (put d p (File []), Opened app p 0)
       end.
(** Bytes written at a position: past the end the gap is filled with zeros. *)
Definition write_at (pos : nat) (new old : text) : text :=
  firstn pos old ++ repeat zero (pos - length old) ++ new ++ skipn (pos + length new) old.
(** [<<], flushed. A closed stream drops what it is given. *)
Definition write (d : disk) (s : stream) (new : text) : disk * stream :=
  match s with
  | Closed => (d, Closed)
  | Opened app p pos =>
      match nodes d p with
      | Some (File c) =>
          let pos := if app then length c else pos in
          (put d p (File (write_at pos new c)), Opened app p (pos + length new))
      | _ => (d, s)
      end
  end.

(** log.hpp:100-102 the members. *)
Record log := mkLog { filename_ : path; out_file_ : stream }.
Definition newline : text := [ascii_of_nat 10].
(** log.hpp:32-56: the constructor; [header] is the time of day when add_header is set. *)
Definition log_open (d : disk) (filename : path) (header : option text) : outcome (disk * log) :=
  let! d := create_directory d (removelast filename) in
  let '(d, s) := open_stream d filename false in
  match s with
  | Closed => Throw InvalidArgument
  | _ =>
      match header with
      | None => Ok (d, mkLog filename s)
      | Some buffer => let '(d, s) := write d s (buffer ++ newline) in Ok (d, mkLog filename s)
      end
  end.
(** log.hpp:58-59: the copy constructor; that the file was opened is not checked. *)
Definition log_copy (d : disk) (other : log) : disk * log :=
  let '(d, s) := open_stream d (filename_ other) true in (d, mkLog (filename_ other) s).
(** log.hpp:61-64: the move constructor; the new log, and what is left of the other. *)
Definition log_move (d : disk) (other : log) : disk * (log * log) :=
  let '(d, l) := log_copy d other in (d, (l, mkLog (filename_ other) Closed)).
(** log.hpp:80-92: move assignment of another log; the log, and what is left of the other. *)
Definition log_assign_move (d : disk) (this other : log) : disk * (log * log) :=
  let '(d, s) := open_stream d (filename_ other) true in (d, (mkLog (filename_ other) s, mkLog (filename_ this) Closed)).
(** log.hpp:80-92: move assignment of a log to itself. *)
Definition log_assign_self (d : disk) (this : log) : disk * log :=
  let '(d, s) := open_stream d (filename_ this) true in (d, mkLog (filename_ this) s).
(** log.hpp:73-78: copy assignment, also of a log to itself; the temporary copy dies at the end. *)
Definition log_assign_copy (d : disk) (this other : log) : disk * log :=
  let '(d, tmp) := log_copy d other in
  let '(d, (this, _)) := log_assign_move d this tmp in
  (d, this).
(** log.hpp:94-97: logMessage. *)
Definition log_message (d : disk) (this : log) (message : text) : disk * log :=
  let '(d, s) := write d (out_file_ this) (message ++ newline) in (d, mkLog (filename_ this) s).

(** A program using logs: variables hold logs. *)
Inductive op :=
| New (i : nat) (filename : path) (header : option text)
| Copy (i from : nat)
| Move (i from : nat)
| AssignCopy (i from : nat)
| AssignMove (i from : nat)
| Destroy (i : nat)
| Say (i : nat) (message : text)
| Allow (p : path) (b : bool).
Definition vars := nat -> option log.
Definition setv (v : vars) (i : nat) (l : option log) : vars := fun j => if (j =? i)%nat then l else v j.
(** A variable is constructed once before it is used and until it is destroyed; anything else is undefined. *)
Definition step (d : disk) (v : vars) (o : op) : outcome (disk * vars) :=
  match o with
  | New i p h => match v i with Some _ => UB | None => let! r := log_open d p h in Ok (fst r, setv v i (Some (snd r))) end
  | Copy i from => match v i, v from with None, Some l => let '(d, l) := log_copy d l in Ok (d, setv v i (Some l)) | _, _ => UB end
  | Move i from =>
      match v i, v from with None, Some l => let '(d, (l, rest)) := log_move d l in Ok (d, setv (setv v i (Some l)) from (Some rest)) | _, _ => UB end
  | AssignCopy i from => match v i, v from with Some t, Some l => let '(d, t) := log_assign_copy d t l in Ok (d, setv v i (Some t)) | _, _ => UB end
  | AssignMove i from =>
      match v i, v from with
      | Some t, Some l =>
          if (i =? from)%nat then let '(d, t) := log_assign_self d t in Ok (d, setv v i (Some t))
          else let '(d, (t, rest)) := log_assign_move d t l in Ok (d, setv (setv v i (Some t)) from (Some rest))
      | _, _ => UB
      end
  | Destroy i => match v i with Some _ => Ok (d, setv v i None) | None => UB end
  | Say i m => match v i with Some l => let '(d, l) := log_message d l m in Ok (d, setv v i (Some l)) | None => UB end
  | Allow p b => Ok (mkDisk (nodes d) (fun q => if path_eqb q p then b else allowed d q), v)
  end.
Fixpoint run (d : disk) (v : vars) (ops : list op) : outcome (disk * vars) :=
  match ops with [] => Ok (d, v) | o :: ops => let! r := step d v o in run (fst r) (snd r) ops end.
