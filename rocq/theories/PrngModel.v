(** Model of the pseudo-random generators of include/arc_utilities/arc_helpers.hpp:821-933.  uint64_t is N modulo
    2^64. *)
From Verif Require Import Base.
Local Open Scope N_scope.

Definition w64 (x : N) : N := x mod 2 ^ 64.
Definition shl (x k : N) : N := w64 (N.shiftl x k).
Definition shr (x k : N) : N := N.shiftr x k.

(** ** SplitMix64PRNG: 821-851 *)
Definition sm_state (x : N) : N := w64 (x + 11400714819323198485).
(** 825-830, the output computed from the advanced state. *)
Definition sm_mix (z0 : N) : N :=
  let z1 := w64 (N.lxor z0 (shr z0 30) * 13787848793156543929) in
  let z2 := w64 (N.lxor z1 (shr z1 27) * 10723151780598845931) in
  N.lxor z2 (shr z2 31).
Definition sm_next (st : N) : N * N := let z := sm_state st in (sm_mix z, z).

(** ** XorShift128PlusPRNG: 853-890 *)
Definition xs_next (st : N * N) : N * (N * N) :=
  let '(s1, s0) := st in
  let s1' := N.lxor s1 (shl s1 23) in
  let n2 := N.lxor (N.lxor (N.lxor s1' s0) (shr s1' 18)) (shr s0 5) in
  (w64 (n2 + s0), (s0, n2)).
(** 874-878 seed *)
Definition xs_seed (s : N) : N * N :=
  let '(a, st1) := sm_next s in
  let '(b, _) := sm_next st1 in
  (a, b).

(** ** XorShift1024StarPRNG: 892-933; the state is the array of 16 words and the index p *)
Definition big := (list N * nat)%type.
(** 897-904 next *)
Definition big_next (st : big) : N * big :=
  let '(arr, p) := st in
  let s0 := nth p arr 0 in
  let p' := (S p mod 16)%nat in
  let s1 := nth p' arr 0 in
  let s1' := N.lxor s1 (shl s1 31) in
  let v := N.lxor (N.lxor (N.lxor s1' s0) (shr s1' 11)) (shr s0 30) in
  (w64 (v * 1181783497276652981), (upd arr p' v, p')).
(** 916-921 the words produced by seed *)
Fixpoint seed_words (n : nat) (st : N) : list N :=
  match n with O => [] | S n' => let '(a, st') := sm_next st in a :: seed_words n' st' end.
(** 907-910 constructor; 916-921 seed on an existing generator: p is left as it is. *)
Definition big_make (s : N) : big := (seed_words 16 s, 0%nat).
Definition big_seed (s : N) (st : big) : big := (seed_words 16 s, snd st).

(** ** Client histories, for any of the three *)
Section H.
Context {S : Type}.
Variable next : S -> N * S.
Variable seed : N -> S -> S.
Inductive rop := Draw | Discard (n : nat) | Seed (s : N).
(** discard (841-848, 882-889, 923-930): n calls of next *)
Fixpoint discard (n : nat) (st : S) : S := match n with O => st | Datatypes.S n' => discard n' (snd (next st)) end.
(** The generator after a history, and the numbers drawn. *)
Fixpoint rrun (st : S) (h : list rop) : list N * S :=
  match h with
  | [] => ([], st)
  | Draw :: h' => let '(x, st') := next st in let '(xs, st'') := rrun st' h' in (x :: xs, st'')
  | Discard n :: h' => rrun (discard n st) h'
  | Seed s :: h' => rrun (seed s st) h'
  end.
End H.
