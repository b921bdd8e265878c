(** Model of include/arc_utilities/eigen_std_conversions.hpp and src/roscpp_initializer.cpp. *)
From Coq Require Import String Strings.Byte.
From Verif Require Import Base.
Open Scope Z_scope.

(** ** eigen_std_conversions.hpp *)
(** The constructor of std::vector from two pointers into an array holding [mem], both given as numbers of elements from its start: the values
    between them; a pointer past one behind the end is undefined. *)
Definition from_range {A} (mem : list A) (first last : Z) : outcome (list A) :=
  if (0 <=? first) && (first <=? last) && (last <=? Z.of_nat (length mem))
  then Ok (firstn (Z.to_nat (last - first)) (skipn (Z.to_nat first) mem)) else UB.
(** 11-14: ConvertTo<std::vector<double>>.  [vec.data() + n * sizeof(double)] counts in doubles; the product is one of unsigned long. *)
Definition sizeof_double : Z := 8.
Definition convert_to {A} (vec : list A) : outcome (list A) :=
  from_range vec 0 ((Z.of_nat (length vec) * sizeof_double) mod 2 ^ 64).

(** ** roscpp_initializer.cpp *)
Inductive level := Debug | Info | Warn | Error | Fatal.
(** The effects the functions have outside: the level of a logger, ros::init with argc, the arrays argv points to, the name and the options, the
    life of a spinner (by its number, with its number of threads), ros::shutdown.  The content of a fresh array is [None] until written. *)
Inductive ev :=
| SetLevel (name : string) (l : level)
| RosInit (argc : Z) (argv : list (list (option byte))) (name : string) (options : Z)
| SpinNew (id : nat) (threads : Z) | SpinDel (id : nat) | SpinStart (id : nat)
| RosShutdown.
(** 15: the spinner of the module, the number of the next spinner, and the effects so far, oldest first. *)
Record world := mkW { spinner : option nat; next : nat; trace : list ev }.
Definition start_world : world := mkW None 0 [].
Definition emit (e : ev) (w : world) : world := mkW (spinner w) (next w) (trace w ++ [e]).

(** strcpy (54): the bytes of [s] before its first NUL, then a NUL, written from the start of the array [buf]; [None] when they do not fit. *)
Fixpoint strcpy (buf : list (option byte)) (s : list byte) : option (list (option byte)) :=
  match buf with
  | [] => None
  | _ :: rest =>
      match s with
      | [] => Some (Some x00 :: rest)
      | c :: s' => if Byte.eqb c x00 then Some (Some x00 :: rest)
                   else match strcpy rest s' with Some r => Some (Some c :: r) | None => None end
      end
  end.
(** 52-56: convert.  The array is never freed, also not in the code. *)
Definition convert (s : list byte) : outcome (list (option byte)) :=
  match strcpy (repeat None (S (length s))) s with Some b => Ok b | None => UB end.
(** 57: std::transform. *)
Fixpoint convert_all (argv : list (list byte)) : outcome (list (list (option byte))) :=
  match argv with
  | [] => Ok []
  | s :: r => let! p := convert s in let! ps := convert_all r in Ok (p :: ps)
  end.
(** 50: static_cast<int> of a size. *)
Definition to_int (n : Z) : Z := (n + 2 ^ 31) mod 2 ^ 32 - 2 ^ 31.
(** 19-37: the level of the switch. *)
Definition level_of (z : Z) : option level :=
  match z with 0 => Some Debug | 1 => Some Info | 2 => Some Warn | 3 => Some Error | 4 => Some Fatal | _ => None end.
(** 40-49: the options, which nothing reads afterwards; the constants of ros::init_options. *)
Definition options_of (anonymous disable_rosout disable_signals : bool) : Z :=
  Z.lor (Z.lor (if anonymous then 2 else 0) (if disable_signals then 1 else 0)) (if disable_rosout then 4 else 0).
(** 60: make_unique, then the assignment to the unique_ptr, which destroys what it held. *)
Definition replace_spinner (threads : Z) (w : world) : world :=
  let id := next w in
  let w1 := mkW (Some id) (S id) (trace w ++ [SpinNew id threads]) in
  match spinner w with Some old => emit (SpinDel old) w1 | None => w1 end.
Definition start_spinner (w : world) : world := match spinner w with Some id => emit (SpinStart id) w | None => w end.
(** 17-62: init_node.  [refused]: whether ros::init throws for a name (ros::InvalidNameException is a std::runtime_error).  The last argument of
    ros::init is not given (58), so it is its default, 0. *)
Definition init_node (refused : string -> bool) (name : string) (argv : list (list byte)) (log_level : Z) (anonymous disable_rosout disable_signals : bool)
  (w : world) : world * outcome unit :=
  match level_of log_level with
  | None => (w, Throw InvalidArgument)
  | Some l =>
      let w := emit (SetLevel name l) w in
      let options := options_of anonymous disable_rosout disable_signals in
      match convert_all argv with
      | Ok ps =>
          let w := emit (RosInit (to_int (Z.of_nat (length argv))) ps name 0) w in
          if refused name then (w, Throw RuntimeError)
          else (start_spinner (replace_spinner 1 w), Ok tt)
      | Throw e => (w, Throw e) | AssertFail => (w, AssertFail) | UB => (w, UB) | NoFuel => (w, NoFuel)
      end
  end.
(** 64: shutdown.  The spinner stays. *)
Definition shutdown (w : world) : world := emit RosShutdown w.
(** A program calling the two functions; a call that throws leaves what it did. *)
Inductive call := Init (name : string) (argv : list (list byte)) (log_level : Z) (anonymous disable_rosout disable_signals : bool) | Shutdown.
Definition run1 (refused : string -> bool) (c : call) (w : world) : world :=
  match c with
  | Init n a l x y z => fst (init_node refused n a l x y z w)
  | Shutdown => shutdown w
  end.
Definition run (refused : string -> bool) (cs : list call) (w : world) : world := fold_left (fun w c => run1 refused c w) cs w.
