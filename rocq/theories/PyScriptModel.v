(** Model of the scripts that delete directories: scripts/remove_directories_with_few_files.py and scripts/remove_small_directories.py, on top of the
    models of filesystem_utils.py and conversions.py.  The arguments are taken after argparse: the roots as paths, the count as a number, the size as
    text.  Printing and colours are left out. *)
From Coq Require Import Ascii String.
From Verif Require Import PyBase PyFsModel PyConvModel.
Open Scope list_scope.

(** Path.iterdir(); a link is followed. *)
Definition iterdir (s : fs) (p : path) : py (list path) :=
  let d := follow s p in
  match lookup s d with
  | None => Raise FileNotFoundError
  | Some NDir => Ret (children s d)
  | Some _ => Raise NotADirectoryError
  end.
(** remove_directories_with_few_files.py 20-24 and remove_small_directories.py 23-27: the inner loop, with the measure of the script. *)
Fixpoint select (s : fs) (measure : path -> py Z) (threshold : Z) (ds : list path) : py (list path) :=
  match ds with
  | [] => Ret []
  | d :: ds' =>
      if is_dir s d then
        let? n := measure d in
        let? rest := select s measure threshold ds' in
        Ret (if (n <? threshold)%Z then d :: rest else rest)
      else select s measure threshold ds'
  end.
(** remove_directories_with_few_files.py 18-24 and remove_small_directories.py 21-27: the outer loop. *)
Fixpoint collect (s : fs) (measure : path -> py Z) (threshold : Z) (roots : list path) : py (list path) :=
  match roots with
  | [] => Ret []
  | root :: roots' =>
      let? ds := iterdir s root in
      let? l := select s measure threshold ds in
      let? rest := collect s measure threshold roots' in
      Ret (l ++ rest)
  end.
(** The end of both scripts: remove_directories_with_few_files.py 26 and remove_small_directories.py 29. *)
Definition remove_collected (fuel : nat) (s : fs) (l : py (list path)) (answer : string) : fs * py unit :=
  match l with
  | Ret ds => ask_to_remove fuel s true ds answer
  | Raise e => (s, Raise e)
  | NoEnd => (s, NoEnd)
  end.
(** remove_directories_with_few_files.py 10-26: main; [answer] is what is typed. *)
Definition few_files (fuel : nat) (s : fs) (roots : list path) (count : Z) (answer : string) : fs * py unit :=
  remove_collected fuel s (collect s (fun d => let? n := count_files fuel s d in Ret (Z.of_nat n)) count roots) answer.
(** remove_small_directories.py 11-29: main. *)
Definition small_dirs (fuel : nat) (s : fs) (roots : list path) (size : string) (answer : string) : fs * py unit :=
  remove_collected fuel s (let? threshold := parse_file_size size in collect s (fun d => Ret (directory_size s d)) threshold roots) answer.
