(** Model of the helpers for console programs of include/arc_utilities/arc_helpers.hpp (60-153, 1267-1281): the debugger test, waiting for input, leveled
    messages, alignment.  Strings are sequences of bytes. *)
From Coq Require Import Ascii String DecimalString.
From Verif Require Import Base.
Open Scope list_scope.

(** ** The debugger *)
(** A C string: the bytes up to the first zero. *)
Fixpoint cstr (s : string) : string :=
  match s with
  | EmptyString => EmptyString
  | String c s' => if Ascii.eqb c Ascii.zero then EmptyString else String c (cstr s')
  end.
(** strstr, which here returns the text after the first occurrence: :77 and the addition of :79. *)
Fixpoint after (needle s : string) : option string :=
  if String.prefix needle s then Some (substring (String.length needle) (String.length s - String.length needle) s)
  else match s with EmptyString => None | String _ s' => after needle s' end.
(** atoi: blanks, a sign, digits; other numbers than those of int are undefined. *)
Definition is_blank (c : ascii) : bool := let n := nat_of_ascii c in (n =? 32)%nat || ((9 <=? n)%nat && (n <=? 13)%nat).
Fixpoint skip_blanks (s : string) : string :=
  match s with String c s' => if is_blank c then skip_blanks s' else s | EmptyString => s end.
Fixpoint leading (acc : Z) (s : string) : Z :=
  match s with
  | EmptyString => acc
  | String c s' => let n := nat_of_ascii c in if (48 <=? n)%nat && (n <=? 57)%nat then leading (acc * 10 + (Z.of_nat n - 48)) s' else acc
  end.
Definition atoi (s : string) : outcome Z :=
  let v := match skip_blanks s with
           | String "-" s' => (- leading 0 s')%Z
           | String "+" s' => leading 0 s'
           | s' => leading 0 s'
           end in
  if ((- 2 ^ 31 <=? v) && (v <? 2 ^ 31))%Z then Ok v else UB.

(** :63-83 IsDebuggerPresent in a process that may have [limit] open descriptors and has [used]; [file] is the status file, None if it cannot be opened,
    of which read delivers at most [delivered] bytes.  The descriptor is not closed: the second component is the number used afterwards. *)
Definition is_debugger_present (limit used : nat) (file : option string) (delivered : nat) : outcome bool * nat :=
  match file with
  | Some text =>
      if (used <? limit)%nat then
        let buf := substring 0 (Nat.min delivered 1023) text in
        (match buf with
         | EmptyString => Ok false
         | _ => match after "TracerPid:" (cstr buf) with
                | Some rest => let! pid := atoi rest in Ok (negb (pid =? 0)%Z)
                | None => Ok false
                end
         end, S used)
      else (Ok false, used)
  | None => (Ok false, used)
  end.

(** ** Input *)
(** std::cin: what is still to be read (nothing more means the end of the input), eofbit and failbit, and whether exceptions are switched on for eofbit and
    failbit.  Waiting for keys is not visible; badbit is not modelled. *)
Record cin := Cin { rest : string; eof : bool; fail : bool; exc_eof : bool; exc_fail : bool }.
Definition good (i : cin) : bool := negb (eof i || fail i).
(** setstate: throws if an exception is switched on for a bit that is set. *)
Definition setstate (i : cin) (e f : bool) : cin * bool :=
  let j := Cin (rest i) (eof i || e) (fail i || f) (exc_eof i) (exc_fail i) in (j, (eof j && exc_eof j) || (fail j && exc_fail j)).
(** A read of one character as istream::get does it: -1 at the end; the boolean says that it throws. *)
Definition get (i : cin) : Z * cin * bool :=
  if good i then
    match rest i with
    | String c r => (Z.of_nat (nat_of_ascii c), Cin r (eof i) (fail i) (exc_eof i) (exc_fail i), false)
    | EmptyString => let (j, t) := setstate i true true in ((-1)%Z, j, t)
    end
  else let (j, t) := setstate i false true in ((-1)%Z, j, t).
(** istream::peek. *)
Definition peek (i : cin) : Z * cin * bool :=
  if good i then
    match rest i with
    | String c _ => (Z.of_nat (nat_of_ascii c), i, false)
    | EmptyString => let (j, t) := setstate i true false in ((-1)%Z, j, t)
    end
  else let (j, t) := setstate i false true in ((-1)%Z, j, t).
(** istream::ignore(1). *)
Definition ignore1 (i : cin) : cin * bool :=
  if good i then
    match rest i with
    | String _ r => (Cin r (eof i) (fail i) (exc_eof i) (exc_fail i), false)
    | EmptyString => setstate i true false
    end
  else setstate i false true.
Definition clear (i : cin) : cin := Cin (rest i) false false (exc_eof i) (exc_fail i).
(** std::getline into a string: the line without its end; at the end of the input eofbit, and failbit if nothing was read. *)
Fixpoint line (s : string) : string * string * bool :=
  match s with
  | EmptyString => (EmptyString, EmptyString, true)
  | String c s' => if Ascii.eqb c "010" then (EmptyString, s', false) else let '(l, r, e) := line s' in (String c l, r, e)
  end.
Definition getline (i : cin) : string * cin * bool :=
  if good i then
    let '(l, r, e) := line (rest i) in
    let (j, t) := setstate (Cin r (eof i) (fail i) (exc_eof i) (exc_fail i)) e (e && (l =? "")%string) in (l, j, t)
  else let (j, t) := setstate i false true in (EmptyString, j, t).

(** The terminal: whether lines are edited before they are delivered (ICANON of c_lflag), and the other flags of c_lflag. *)
Record term := Term { canon : bool; others : N }.
(** :99-117 GetChar on a terminal.  The last component is the terminal while the character is awaited; None as result is an exception, which leaves
    the terminal as it is then. *)
Definition get_char (i : cin) (t : term) : option Z * cin * term * term :=
  let t1 := Term false (others t) in
  let '(c, i1, th1) := peek i in
  if th1 then (None, i1, t1, t1)
  else
    let (i2, th2) := ignore1 i1 in
    if th2 then (None, i2, t1, t1)
    else (Some c, clear i2, Term (canon t) (others t), t1).
(** :123-128 WaitForInput: what is printed, and what is returned; None is an exception. *)
Definition wait_for_input (message : string) (i : cin) : string * option string * cin :=
  let '(l, j, t) := getline i in (message, (if t then None else Some l), j).

(** ** Messages *)
(** std::to_string of an int32_t. *)
Definition to_string (z : Z) : string :=
  match z with
  | Z0 => "0"
  | Zpos p => NilEmpty.string_of_uint (Pos.to_uint p)
  | Zneg p => String "-" (NilEmpty.string_of_uint (Pos.to_uint p))
  end%string.
Definition nl : string := String "010" EmptyString.
(** The text of a message, of 134-135, 1269-1270 and 1277-1278. *)
Definition leveled (msg : string) (msg_level print_level : Z) : string :=
  ("[" ++ to_string msg_level ++ "/" ++ to_string print_level ++ "] " ++ msg ++ nl)%string.
(** :1267-1273 ConditionalPrint and 1275-1281 ConditionalError: what goes to std::cout and to std::cerr. *)
Definition conditional_print (msg : string) (msg_level print_level : Z) : string * string :=
  if (msg_level <=? print_level)%Z then (leveled msg msg_level print_level, ""%string) else (""%string, ""%string).
Definition conditional_error (msg : string) (msg_level print_level : Z) : string * string :=
  if (msg_level <=? print_level)%Z then (""%string, leveled msg msg_level print_level) else (""%string, ""%string).
(** :85-92 InteractiveWaitToContinue: what is printed and the input afterwards; [dbg] is what IsDebuggerPresent says.  None is an exception. *)
Definition interactive_wait (dbg : bool) (i : cin) : string * option cin :=
  if dbg then (("Process is under debugger, use breakpoints for interactive flow control instead" ++ nl)%string, Some i)
  else let '(_, j, t) := get i in (("Press ENTER to continue..." ++ nl)%string, if t then None else Some j).
(** :130-138 ConditionalPrintWaitForInteractiveInput. *)
Definition conditional_wait (dbg : bool) (msg : string) (msg_level print_level : Z) (i : cin) : string * option cin :=
  if (msg_level <=? print_level)%Z then
    let (out, j) := interactive_wait dbg i in ((leveled msg msg_level print_level ++ out)%string, j)
  else (""%string, Some i).

(** ** Alignment *)
(** :141-145 CheckAlignment of an object at an address. *)
Definition check_alignment (address : N) (desired : N) : outcome bool :=
  if (desired =? 0)%N then UB else Ok ((address mod desired) =? 0)%N.
(** :148-153 RequireAlignment; [dbg] says whether assertions are compiled. *)
Definition require_alignment (dbg : bool) (address : N) (desired : N) : outcome unit :=
  let! a := check_alignment address desired in
  if a then Ok tt else if dbg then AssertFail else Ok tt.
