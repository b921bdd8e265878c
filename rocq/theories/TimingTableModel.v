(** Model of the tables the Profiler prints and writes, src/arc_utilities/timing.cpp 63-66 and 129-282. *)
From Coq Require Import String Ascii.
From Verif Require Import Base Assoc TimingModel PrintModel.
Open Scope string_scope.

Fixpoint rep (c : ascii) (n : nat) : string := match n with O => "" | S n => String c (rep c n) end.
(** printf's "%-ns" and "%ns" (names contain no NUL). *)
Definition rpad (n : nat) (s : string) : string := s ++ rep " " (n - String.length s).
Definition lpad (n : nat) (s : string) : string := rep " " (n - String.length s) ++ s.

Section Table.
Variable D : Type.
Variable dzero : D.
Variable dadd : D -> D -> D.
Variable ddiv : D -> nat -> D.
Variable fmt : D -> string.            (* the digits of printf's "%f" *)
Notation prof := (profiler string D).
Notation find := (a_find String.eqb).

(** timing.cpp 63-66: isTimerStarted. *)
Definition is_timer_started (m : prof) (name : string) : bool := match find name (timers string D m) with Some _ => true | None => false end.

(** 135-141 and 221-227: the width of the first column; the longest of no names is undefined. *)
Definition label_len (names : list string) : outcome nat :=
  match names with
  | [] => UB
  | n :: names => Ok (Nat.max (fold_left (fun b s => Nat.max b (String.length s)) names (String.length n) + 2) 8)
  end.
(** 151-152 and 239-240 *)
Definition separator (w : nat) : string := rep "~" (w - 2) ++ "      " ++ rep "." 12 ++ "       " ++ rep "~" 9 ++ "    " ++ rep "." 12.
Definition is_separator (name : string) : bool := prefix "~~~~~" name.
Definition f15 (d : D) : string := " " ++ lpad 15 (fmt d).
Definition n15 (n : nat) : string := " " ++ lpad 15 (decimal (Z.of_nat n)).
Definition sum (l : list D) : D := fold_left dadd l dzero.

(** 129-133 *)
Definition box : list string := [" .=======================. "; "||    Profile Summary    ||"; " '=======================' "].
(** 145-148 *)
Definition header (w : nat) : string := rpad w "Label" ++ lpad 16 "tot time (s)" ++ lpad 16 "num_calls" ++ lpad 16 "avg time (s)".
(** 154-173: the line of a name in printGroupSummary. *)
Definition print_row (m : prof) (w : nat) (name : string) : string :=
  if is_separator name then separator w
  else
    let '(tot_time, num_calls, avg_time) :=
      match find name (data string D m) with
      | Some d => let tot_time := sum d in (tot_time, length d, ddiv tot_time (length d))
      | None => (dzero, 0, dzero)
      end in
    rpad w name ++ f15 tot_time ++ n15 num_calls ++ f15 avg_time.
(** 129-174: printGroupSummary: the lines. *)
Definition print_group (m : prof) (names : list string) : outcome (list string) :=
  let! w := label_len names in Ok (box ++ header w :: map (print_row m w) names)%list.
(** 193: printAllSummary. *)
Definition print_all (sort : list string -> list string) (m : prof) : outcome (list string) := print_group m (all_names string D sort m).

(** 231-236 *)
Definition write_header (w : nat) : string := header w ++ lpad 16 "total value" ++ lpad 16 "avg value".
(** 242-279: the line of a name in writeGroupSummary, and whether the warning about a name of both kinds is printed. *)
Definition write_row (m : prof) (w : nat) (name : string) : string * bool :=
  if is_separator name then (separator w, false)
  else
    match find name (data string D m), find name (timed string D m) with
    | Some d, t => let tot_time := sum d in
        (rpad w name ++ f15 tot_time ++ n15 (length d) ++ f15 (ddiv tot_time (length d)), match t with Some _ => true | None => false end)
    | None, Some t =>
        let tot_time := fold_left (fun s v => dadd s (fst v)) t dzero in
        let tot_value := fold_left (fun s v => dadd s (snd v)) t dzero in
        let n := length t in
        (rpad w name ++ f15 tot_time ++ n15 n ++ f15 (ddiv tot_time n) ++ f15 tot_value ++ f15 (ddiv tot_value n), false)
    | None, None => (rpad w name ++ f15 dzero ++ n15 0 ++ f15 dzero, false)
    end.
(** 197-208 and 210-282: writeGroupSummary: the lines of the file afterwards and the names warned about.  [file] is the content of the file, [None]
    when it cannot be opened: the null pointer is written to.  [date] is the line of addHeader. *)
Definition write_group (date : string) (m : prof) (names : list string) (file : option (list string)) : outcome (list string * list string) :=
  match file with
  | None => UB
  | Some old =>
      let! w := label_len names in
      Ok ((old ++ [date; ""] ++ write_header w :: map (fun n => fst (write_row m w n)) names ++ [""])%list, filter (fun n => snd (write_row m w n)) names)
  end.
(** 195: writeAllSummary. *)
Definition write_all_summary (sort : list string -> list string) (date : string) (m : prof) (file : option (list string)) : outcome (list string * list string) :=
  write_group date m (all_names string D sort m) file.
End Table.
