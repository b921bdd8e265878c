(** Model of src/arc_utilities/filesystem_utils.py with pathlib of Python 3.8.  Printing is left out; permissions, other processes and errors of the
    device are not modelled. *)
From Coq Require Import Ascii String DecimalString.
From Verif Require Import PyBase.
Open Scope list_scope.

(** ** The file system *)
(** A path without symbolic links on the way, as its components with the last one first; [] is the root directory. *)
Definition path := list string.
(** A symbolic link has the place it leads to, taken to be reached without further links: a link to a link counts as broken. *)
Inductive node := NFile (size : Z) | NDir | NLink (target : path).
(** All entries, in the order in which the system lists them. *)
Definition fs := list (path * node).

Definition path_eqb (p q : path) : bool := if list_eq_dec string_dec p q then true else false.
Fixpoint lookup (s : fs) (p : path) : option node :=
  match s with [] => None | (q, n) :: s' => if path_eqb q p then Some n else lookup s' p end.
(** Where operations that follow links end up. *)
Definition follow (s : fs) (p : path) : path := match lookup s p with Some (NLink t) => t | _ => p end.
Definition stat (s : fs) (p : path) : option node :=
  match lookup s p with
  | Some (NLink t) => match lookup s t with Some (NLink _) => None | r => r end
  | r => r
  end.
Definition exists_ (s : fs) (p : path) : bool := match stat s p with Some _ => true | None => false end.
Definition is_file (s : fs) (p : path) : bool := match stat s p with Some (NFile _) => true | _ => false end.
Definition is_dir (s : fs) (p : path) : bool := match stat s p with Some NDir => true | _ => false end.
(** The entries of a directory: iterdir() and glob of one star, which also takes hidden files. *)
Definition child_of (d : path) (q : path) : bool := match q with [] => false | _ :: p => path_eqb p d end.
Definition children (s : fs) (d : path) : list path := filter (child_of d) (map fst s).
(** unlink(). *)
Definition remove (s : fs) (p : path) : fs := filter (fun e => negb (path_eqb (fst e) p)) s.
(** rmdir(): of the entry itself, also if it is a link. *)
Definition rmdir (s : fs) (p : path) : fs * py unit :=
  match lookup s p with
  | None => (s, Raise FileNotFoundError)
  | Some NDir => match children s p with [] => (remove s p, Ret tt) | _ => (s, Raise DirectoryNotEmpty) end
  | Some _ => (s, Raise NotADirectoryError)
  end.

(** 75-82: rm_tree; [fuel] bounds the depth of the recursion.  The entries are listed before the first is deleted. *)
Fixpoint rm_tree (fuel : nat) (s : fs) (p : path) : fs * py unit :=
  match fuel with
  | O => (s, NoEnd)
  | S f =>
      let d := follow s p in
      let listed := match lookup s d with Some NDir => children s d | _ => [] end in
      let (s1, r) :=
        (fix loop (s : fs) (cs : list path) : fs * py unit :=
           match cs with
           | [] => (s, Ret tt)
           | c :: cs' =>
               if is_file s c then loop (remove s c) cs'
               else let (s', r) := rm_tree f s c in match r with Ret _ => loop s' cs' | _ => (s', r) end
           end) s listed in
      match r with Ret _ => rmdir s1 p | _ => (s1, r) end
  end.
(** 64-72: count_files_recursive. *)
Fixpoint count_files (fuel : nat) (s : fs) (p : path) : py nat :=
  match fuel with
  | O => NoEnd
  | S f =>
      let d := follow s p in
      match lookup s d with
      | None => Raise FileNotFoundError
      | Some NDir =>
          (fix loop (cs : list path) (count : nat) : py nat :=
             match cs with
             | [] => Ret count
             | c :: cs' => if is_dir s c then let? n := count_files f s c in loop cs' (count + n) else loop cs' (S count)
             end) (children s d) 0
      | Some _ => Raise NotADirectoryError
      end
  end.
(** Whether [q] is [p] or below it. *)
Fixpoint underb (p q : path) : bool := path_eqb q p || match q with [] => false | _ :: q' => underb p q' end.
(** 40-41: directory_size.  The pattern, two stars and then one, gives everything below the directory and does not go through links. *)
Definition directory_size (s : fs) (p : path) : Z :=
  let d := follow s p in
  fold_right Z.add 0%Z
    (map (fun q => match stat s q with Some (NFile n) => n | _ => 0%Z end)
         (filter (fun q => underb d q && negb (path_eqb q d)) (map fst s))).
(** 24-37: get_all_subdirs. *)
Definition get_all_subdirs (s : fs) (dirs : list path) : list path := flat_map (fun d => filter (is_dir s) (children s (follow s d))) dirs.

(** 48-61: ask_to_remove_directories.  The directories are iterated twice; [again] says whether the second time gives them again, as a list does, or
    nothing, as a generator does. *)
Definition is_yes (k : string) : bool := (k =? "")%string || (k =? "y")%string || (k =? "Y")%string.
Fixpoint rm_all (fuel : nat) (s : fs) (ds : list path) : fs * py unit :=
  match ds with
  | [] => (s, Ret tt)
  | d :: ds' => let (s', r) := rm_tree fuel s d in match r with Ret _ => rm_all fuel s' ds' | _ => (s', r) end
  end.
Definition ask_to_remove (fuel : nat) (s : fs) (again : bool) (ds : list path) (answer : string) : fs * py unit :=
  if is_yes answer then rm_all fuel s (if again then ds else []) else (s, Ret tt).

(** Path.mkdir(parents, exist_ok=False).  A parent that is a link is outside of the model: OtherError. *)
Fixpoint mkdir (s : fs) (p : path) (parents : bool) : fs * py unit :=
  match lookup s p, p with
  | Some _, _ | None, [] => (s, Raise FileExistsError)
  | None, _ :: par =>
      match lookup s par with
      | Some NDir => (s ++ [(p, NDir)], Ret tt)
      | Some (NFile _) => (s, Raise NotADirectoryError)
      | Some (NLink _) => (s, Raise OtherError)
      | None =>
          if parents then
            let (s', r) := mkdir s par parents in
            match r with Ret _ => (s' ++ [(p, NDir)], Ret tt) | _ => (s', r) end
          else (s, Raise FileNotFoundError)
      end
  end.
(** 7-21: mkdir_and_ask. *)
Definition mkdir_and_ask (s : fs) (p : path) (parents yes : bool) (answer : string) : fs * py bool :=
  if exists_ s p then
    if yes then (s, Ret true)
    else if (answer =? "y")%string || (answer =? "Y")%string || (answer =? "")%string then (s, Ret true) else (s, Ret false)
  else
    let (s', r) := mkdir s p parents in
    match r with Ret _ => (s', Ret true) | Raise e => (s', Raise e) | NoEnd => (s', NoEnd) end.

(** ** Names *)
Definition dot : ascii := "."%char.
(** str.split at dots. *)
Fixpoint split (s : string) : list string :=
  match s with
  | EmptyString => [EmptyString]
  | String c s' =>
      if Ascii.eqb c dot then EmptyString :: split s'
      else match split s' with [] => [String c EmptyString] | x :: r => String c x :: r end
  end.
Fixpoint join (l : list string) : string :=
  match l with [] => EmptyString | [x] => x | x :: r => (x ++ String dot (join r))%string end.
(** str.lstrip of dots. *)
Fixpoint lstrip (s : string) : string :=
  match s with EmptyString => EmptyString | String c s' => if Ascii.eqb c dot then lstrip s' else s end.
(** PurePath.stem: up to the last dot, unless that is the first or the last character. *)
Definition stem (name : string) : string :=
  let parts := split name in
  if (1 <? length parts)%nat && negb (last parts EmptyString =? "")%string && negb (join (removelast parts) =? "")%string then join (removelast parts) else name.
(** PurePath.suffixes. *)
Definition suffixes (name : string) : list string :=
  if (1 <? length (split name))%nat && (last (split name) EmptyString =? "")%string then []
  else map (String dot) (tl (split (lstrip name))).
(** str of a number. *)
Definition show (n : nat) : string := NilEmpty.string_of_uint (Nat.to_uint n).
(** 100-102: the name of version [n]. *)
Definition version (name : string) (n : nat) : string :=
  (hd EmptyString (split (stem name)) ++ "_v" ++ show n ++ String.concat "" (suffixes name))%string.

(** 85-103: no_overwrite_path of a path with a name; [fuel] bounds the number of tries. *)
Fixpoint overwrite_loop (fuel : nat) (s : fs) (name : string) (parent : path) (new_path : path) (n : nat) : py path :=
  match fuel with
  | O => NoEnd
  | S f => if exists_ s new_path then overwrite_loop f s name parent (version name n :: parent) (S n) else Ret new_path
  end.
Definition no_overwrite_path (fuel : nat) (s : fs) (name : string) (parent : path) : py path :=
  overwrite_loop fuel s name parent (name :: parent) 1.
(** 44-45: append_str_to_path, for a string without separators. *)
Definition append_str_to_path (name : string) (parent : path) (s : string) : path := (name ++ s)%string :: parent.
