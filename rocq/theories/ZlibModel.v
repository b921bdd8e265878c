(** Model of src/arc_utilities/zlib_helpers.cpp.  zlib and the file system are arguments: see the contracts in ZlibProps.v. *)
From Verif Require Import Base.

Section Zlib.
Variable B : Type.                     (* uint8_t *)
Variable buf : nat.                    (* BUFSIZE *)
Variable max_bytes : nat.              (* the greatest value of z_stream_s::avail_in *)

Inductive zret := ZOk | ZStreamEnd | ZError.
(** One call of deflate: state, finish flag, the input left, the room left in the output buffer; gives the new state, the
    number of bytes consumed, the bytes written and the return value.  [None] is a failing deflateInit. *)
Record deflater := { d_state : Type; d_init : option d_state; d_step : d_state -> bool -> list B -> nat -> d_state * nat * list B * zret }.
Record inflater := { i_state : Type; i_init : option i_state; i_step : i_state -> list B -> nat -> i_state * nat * list B * zret }.

Section Deflate.
Variable Z : deflater.
(** zlib_helpers.cpp 88-100: the loop feeding the input; [temp] is what temp_buffer holds. *)
Fixpoint feed (fuel : nat) (st : d_state Z) (input temp compressed : list B) : outcome (d_state Z * list B * list B) :=
  match input with
  | [] => Ok (st, temp, compressed)
  | _ =>
      match fuel with
      | O => NoFuel
      | S fuel =>
          let '(st, n, out, ret) := d_step Z st false input (buf - length temp) in
          match ret with
          | ZOk =>
              let temp := temp ++ out in
              if (buf - length temp =? 0)%nat then feed fuel st (skipn n input) [] (compressed ++ temp)
              else feed fuel st (skipn n input) temp compressed
          | _ => Throw InvalidArgument
          end
      end
  end.
(** 101-114: finishing. *)
Fixpoint finish (fuel : nat) (st : d_state Z) (temp compressed : list B) : outcome (list B) :=
  match fuel with
  | O => NoFuel
  | S fuel =>
      let '(temp, compressed) := if (buf - length temp =? 0)%nat then ([], compressed ++ temp) else (temp, compressed) in
      let '(st, _, out, ret) := d_step Z st true [] (buf - length temp) in
      match ret with
      | ZOk => finish fuel st (temp ++ out) compressed
      | ZStreamEnd => Ok (compressed ++ temp ++ out)
      | ZError => Throw InvalidArgument
      end
  end.
(** 62-117: CompressBytes. *)
Definition compress_bytes (fuel : nat) (data : list B) : outcome (list B) :=
  if (max_bytes <? length data)%nat then Throw InvalidArgument
  else match d_init Z with
  | None => Throw InvalidArgument
  | Some st =>
      let! r := feed fuel st data [] [] in
      let '(st, temp, compressed) := r in finish fuel st temp compressed
  end.
End Deflate.

Section Inflate.
Variable Z : inflater.
(** 43-50: the loop; [total] is total_out before the call. *)
Fixpoint inflate_loop (fuel : nat) (st : i_state Z) (input : list B) (total : nat) (decompressed : list B) : outcome (list B) :=
  match fuel with
  | O => NoFuel
  | S fuel =>
      let '(st, n, out, ret) := i_step Z st input buf in
      let total := (total + length out)%nat in
      let decompressed := if (length decompressed <? total)%nat then decompressed ++ out else decompressed in
      match ret with
      | ZOk => inflate_loop fuel st (skipn n input) total decompressed
      | ZStreamEnd => Ok decompressed
      | ZError => Throw InvalidArgument
      end
  end.
(** 21-59: DecompressBytes.  The members of z_stream_s that inflateInit may read and the code leaves unset are not modelled. *)
Definition decompress_bytes (fuel : nat) (data : list B) : outcome (list B) :=
  if (max_bytes <? length data)%nat then Throw InvalidArgument
  else match i_init Z with None => Throw InvalidArgument | Some st => inflate_loop fuel st data 0 [] end.
End Inflate.

(** ** Files *)
Section Files.
Variable path : Type.
Variable path_eqb : path -> path -> bool.
Variable slice_path : path -> nat -> path.                      (* path + "." + std::to_string(i) *)
Variable compress decompress : list B -> outcome (list B).      (* CompressBytes, DecompressBytes *)
(** What happens when a file is written: [None] if it cannot be opened, otherwise the bytes that arrive and whether the
    stream's bad bit is set after close(). *)
Variable store : path -> list B -> option (list B * bool).
(** The regular files. *)
Definition files := path -> option (list B).
Definition put (fs : files) (p : path) (c : list B) : files := fun q => if path_eqb q p then Some c else fs q.

(** 180-191: compressing and writing a single file. *)
Definition write_single (fs : files) (data : list B) (p : path) : files * outcome unit :=
  match compress data with
  | Ok c =>
      match store p c with
      | None => (fs, Throw RuntimeError)
      | Some (stored, bad) => (put fs p stored, if bad then Throw RuntimeError else Ok tt)
      end
  | Throw e => (fs, Throw e)
  | AssertFail => (fs, AssertFail) | UB => (fs, UB) | NoFuel => (fs, NoFuel)
  end.
(** 164-177: the slices; none of them is longer than max_bytes, so the recursive call writes a single file. *)
Fixpoint write_slices (fuel : nat) (i : nat) (fs : files) (data : list B) (p : path) : files * outcome unit :=
  match fuel with
  | O => (fs, NoFuel)
  | S fuel =>
      let start := (i * max_bytes)%nat in
      let end_ := Nat.min ((i + 1) * max_bytes) (length data) in
      let (fs, r) := write_single fs (firstn (end_ - start) (skipn start data)) (slice_path p i) in
      match r with
      | Ok _ => if ((i + 1) * max_bytes <? length data)%nat then write_slices fuel (i + 1) fs data p else (fs, Ok tt)
      | _ => (fs, r)
      end
  end.
(** 158-192: CompressAndWriteToFile. *)
Definition compress_and_write (fuel : nat) (fs : files) (data : list B) (p : path) : files * outcome unit :=
  if (max_bytes <? length data)%nat then write_slices fuel 0 fs data p else write_single fs data p.

(** 119-156: LoadFromFileAndDecompress; a regular file can be opened and read completely. *)
Definition load_single (content : list B) : outcome (list B) := decompress content.
Fixpoint load_slices (fuel : nat) (i : nat) (fs : files) (p : path) (acc : list B) : outcome (list B) :=
  match fuel with
  | O => NoFuel
  | S fuel =>
      match fs (slice_path p i) with
      | None => Ok acc
      | Some c => let! b := load_single c in load_slices fuel (i + 1) fs p (acc ++ b)
      end
  end.
Definition load (fuel : nat) (fs : files) (p : path) : outcome (list B) :=
  match fs p with
  | Some c => load_single c
  | None => match fs (slice_path p 0) with Some _ => load_slices fuel 0 fs p [] | None => Throw RuntimeError end
  end.
End Files.
End Zlib.
