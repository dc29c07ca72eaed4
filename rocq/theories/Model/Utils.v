(** pkg/utils: string.go, utils.go, asciiset.go.  Definitions only. *)
From Verif Require Export Model.Utf8.

(** utils.Min, pkg/utils/utils.go:3-8 *)
Definition utils_min (a b : Z) : Z := if (a <? b)%Z then a else b.

(** utils.SliceEqual, pkg/utils/utils.go:10-20 *)
Fixpoint slice_equal {A} (eqb : A -> A -> bool) (a b : list A) : bool :=
  match a, b with
  | [], [] => true
  | x :: a', y :: b' => eqb x y && slice_equal eqb a' b'
  | _, _ => false
  end.

(** utils.ContainsReverse, pkg/utils/utils.go:22-29 (a scan from the end) *)
Definition contains_reverse {A} (eqb : A -> A -> bool) (a : list A) (k : A) : bool :=
  existsb (eqb k) (rev a).

(** utils.StringSkipRunes, pkg/utils/string.go:32-43; [None] is -1. *)
Fixpoint skip_runes (s : str) (n : nat) : option nat :=
  match n with
  | O => Some 0
  | S n' =>
      let '(_, k) := decode_rune s in
      if Nat.eqb k 0 then None
      else option_map (Nat.add k) (skip_runes (skipn k s) n')
  end.

(** utils.StringSkipRunesLast, pkg/utils/string.go:45-59: the loop returns the
    remaining prefix length, which is [l - end]. *)
Fixpoint skip_runes_last (s : str) (n : nat) : option nat :=
  match n with
  | O => Some (length s)
  | S n' =>
      let '(_, k) := decode_last_rune s in
      if Nat.eqb k 0 then None
      else skip_runes_last (firstn (length s - k) s) n'
  end.

(** utils.SplitString, pkg/utils/string.go:61-63 *)
Definition split_string (s : str) (start : nat) : str * str := (firstn start s, skipn start s).

(** utils.ASCIISet = [8]uint32, pkg/utils/asciiset.go:16 *)
Definition ascii_set := list N.
(** the zero value / Clear, asciiset.go:61-70 *)
Definition as_empty : ascii_set := repeat 0%N 8.

(** [as[c/32] |= 1 << (c % 32)], asciiset.go:102 and 121 *)
Definition as_set_bit (a : ascii_set) (c : ascii) : ascii_set :=
  let i := N.to_nat (code c / 32) in
  set_nth i (N.lor (nth i a 0%N) (N.shiftl 1 (code c mod 32))) a.

(** ASCIISet.Add, asciiset.go:117-123 *)
Definition as_add (a : ascii_set) (c : ascii) : ascii_set * bool :=
  if (RuneSelf <=? code c)%N then (a, false) else (as_set_bit a c, true).

(** ASCIISet.Contains, asciiset.go:126-131 *)
Definition as_contains (a : ascii_set) (c : ascii) : bool :=
  if (RuneSelf <=? code c)%N then false
  else negb (N.land (nth (N.to_nat (code c / 32)) a 0) (N.shiftl 1 (code c mod 32)) =? 0)%N.

(** The loop of MakeASCIISet, asciiset.go:97-103: stops at the first non-ASCII byte. *)
Fixpoint make_ascii_set_from (a : ascii_set) (chars : str) : ascii_set * bool :=
  match chars with
  | [] => (a, true)
  | c :: t => if (RuneSelf <=? code c)%N then (a, false)
              else make_ascii_set_from (as_set_bit a c) t
  end.
(** MakeASCIISet, asciiset.go:96-105 *)
Definition make_ascii_set (chars : str) : ascii_set * bool := make_ascii_set_from as_empty chars.

(** MakeASCIISetMust, asciiset.go:108-114 *)
Definition make_ascii_set_must (chars : str) : res ascii_set :=
  let '(a, ok) := make_ascii_set chars in if ok then Ok a else Panic.

(** ASCIISet.IsEmpty, asciiset.go:41-44 *)
Definition as_is_empty (a : ascii_set) : bool := forallb (N.eqb 0) a.

(** The bytes [lo], [lo+1], ... ([n] of them): the counting loops of asciiset.go:21, 49 and 81. *)
Fixpoint bytes_from (lo : N) (n : nat) : list ascii :=
  match n with O => [] | S n' => byte_of lo :: bytes_from (lo + 1) n' end.

(** ASCIISet.Count, asciiset.go:46-59: [for i = 1; i <= 127]; [first] is 0 while unset. *)
Definition as_count (a : ascii_set) : nat * ascii :=
  if as_is_empty a then (0, byte_of 0)
  else fold_left (fun '(n, first) i =>
         if as_contains a i
         then (S n, if (code first =? 0)%N then i else first)
         else (n, first)) (bytes_from 1 127) (0, byte_of 0).

(** The loop body of ASCIISet.WriteString, asciiset.go:21-34. State: output so far and [start] (0
    when no run is open). *)
Definition as_write_step (a : ascii_set) (st : str * N) (b : ascii) : str * N :=
  let '(out, start) := st in
  let i := code b in
  if as_contains a b then (out, if (start =? 0)%N then i else start)
  else if negb (start =? 0)%N then
    (out ++ [byte_of start]
         ++ (if (start + 1 <? i)%N then ["-"%char; byte_of (i - 1)] else []), 0%N)
  else (out, start).
(** ASCIISet.WriteString, asciiset.go:18-39 *)
Definition as_write (a : ascii_set) : str :=
  if as_is_empty a then []
  else
    let '(out, start) := fold_left (as_write_step a) (bytes_from 1 127) ([], 0%N) in
    if negb (start =? 0)%N then out ++ [byte_of start] else out.

(** ASCIISet.WriteStringAll, asciiset.go:79-86: [i < 127]. *)
Definition as_write_all (a : ascii_set) : str := filter (as_contains a) (bytes_from 1 126).

(** ASCIISet.Index / IndexByte, asciiset.go:134-151 *)
Definition as_index (a : ascii_set) (s : str) : option nat := find_byte (as_contains a) s.
(** ASCIISet.LastIndex / LastIndexByte, asciiset.go:154-171: scan from the end. *)
Definition as_last_index (a : ascii_set) (s : str) : option nat :=
  match find_byte (as_contains a) (rev s) with
  | Some k => Some (length s - 1 - k)
  | None => None
  end.

(** Comparison of the [8]uint32 arrays ([a.ASCII != rs.ASCII]), runesranges.go:148. *)
Definition as_eqb (a b : ascii_set) : bool := slice_equal N.eqb a b.
