(** Go's unicode/utf8 package (the functions used by the repository), and
    [range] over a string.  Definitions only. *)
From Verif Require Export Model.Bytes.
Local Open Scope N_scope.

(** Runes are natural numbers (Go int32; the code never has negative runes except the explicit
    sentinel in expand/runes.go:126-138, modelled there). *)
Definition rune := N.

(** utf8.RuneError = U+FFFD: Go standard library, not a file of /repo; used in pkg/items/rune.go:62.
    *)
Definition RuneError : rune := 65533.
(** utf8.RuneSelf: Go standard library, not a file of /repo; used in pkg/utils/asciiset.go:99. *)
Definition RuneSelf : N := 128.

(** Continuation byte 0x80..0xBF, for the decoder below (used in pkg/utils/string.go:34). *)
Definition is_cont (b : ascii) : bool := (128 <=? code b) && (code b <=? 191).

(** Inclusive range test on a byte, for the accept ranges of second bytes of the decoder below (used
    in pkg/utils/string.go:34). *)
Definition in_range (b : ascii) (lo hi : N) : bool := (lo <=? code b) && (code b <=? hi).

(** utf8.DecodeRuneInString: ([RuneError],0) for "", ([RuneError],1) for a malformed start. The bit
    masks of the library are written as arithmetic. Go standard library, not a file of /repo; used
    in pkg/utils/string.go:34, pkg/items/rune.go:62, pkg/items/items.go:373, pkg/items/tree.go:262, wildcard.go:79. *)
Definition decode_rune (s : str) : rune * nat :=
  match s with
  | [] => (RuneError, 0%nat)
  | b0 :: t =>
      let p0 := code b0 in
      if p0 <? 128 then (p0, 1%nat)
      else if (p0 <? 194) || (244 <? p0) then (RuneError, 1%nat)
      else if p0 <? 224 then
        match t with
        | b1 :: _ =>
            if is_cont b1 then ((p0 - 192) * 64 + (code b1 - 128), 2%nat)
            else (RuneError, 1%nat)
        | _ => (RuneError, 1%nat)
        end
      else if p0 <? 240 then
        match t with
        | b1 :: b2 :: _ =>
            if in_range b1 (if p0 =? 224 then 160 else 128) (if p0 =? 237 then 159 else 191)
               && is_cont b2
            then ((p0 - 224) * 4096 + (code b1 - 128) * 64 + (code b2 - 128), 3%nat)
            else (RuneError, 1%nat)
        | _ => (RuneError, 1%nat)
        end
      else
        match t with
        | b1 :: b2 :: b3 :: _ =>
            if in_range b1 (if p0 =? 240 then 144 else 128) (if p0 =? 244 then 143 else 191)
               && is_cont b2 && is_cont b3
            then ((p0 - 240) * 262144 + (code b1 - 128) * 4096
                  + (code b2 - 128) * 64 + (code b3 - 128), 4%nat)
            else (RuneError, 1%nat)
        | _ => (RuneError, 1%nat)
        end
  end.

(** A Unicode scalar value (utf8.ValidRune), for the encoder below (used in
    pkg/utils/runesranges.go:157-168). *)
Definition valid_rune (r : rune) : bool := (r <? 55296) || ((57344 <=? r) && (r <=? 1114111)).

(** utf8.RuneLen: -1 for values that cannot be encoded. Go standard library, not a file of /repo;
    used in pkg/items/rune.go:46 and pkg/utils/runesranges.go:89. *)
Definition rune_len (r : rune) : Z :=
  if r <? 128 then 1%Z
  else if r <? 2048 then 2%Z
  else if negb (valid_rune r) then (-1)%Z
  else if r <? 65536 then 3%Z
  else 4%Z.

(** string(r), utf8.AppendRune, strings.Builder.WriteRune: invalid runes are written as U+FFFD. Go
    standard library, not a file of /repo; used in expand/expression.go:114 and
    pkg/items/rune.go:22-43. *)
Definition encode_rune (r : rune) : str :=
  if r <? 128 then [byte_of r]
  else if r <? 2048 then [byte_of (192 + r / 64); byte_of (128 + r mod 64)]
  else if negb (valid_rune r) then [byte_of 239; byte_of 191; byte_of 189]
  else if r <? 65536 then
    [byte_of (224 + r / 4096); byte_of (128 + (r / 64) mod 64); byte_of (128 + r mod 64)]
  else
    [byte_of (240 + r / 262144); byte_of (128 + (r / 4096) mod 64);
     byte_of (128 + (r / 64) mod 64); byte_of (128 + r mod 64)].

(** Concatenated encodings of a list of runes (for statements; no counterpart in the .go files). *)
Definition encode_all (rs : list rune) : str := List.concat (List.map encode_rune rs).

(** utf8.RuneStart, for DecodeLastRuneInString below (used in pkg/utils/string.go:49). *)
Definition rune_start (b : ascii) : bool := negb (is_cont b).

(** Scan of DecodeLastRuneInString: from [start], at most [k] steps back, to the nearest start byte
    (the [for] loop; stops at the limit). [start] counts bytes of [s] strictly before which we look.
    (Used in pkg/utils/string.go:49.) *)
Fixpoint last_start (s : str) (start k : nat) : nat :=
  match k with
  | O => start
  | S k' =>
      match start with
      | O => O
      | S p => if rune_start (nth p s Ascii.zero) then p else last_start s p k'
      end
  end.

(** utf8.DecodeLastRuneInString: Go standard library, not a file of /repo; used in
    pkg/utils/string.go:49, pkg/utils/runesranges.go:351 and pkg/items/rune.go:75. *)
Definition decode_last_rune (s : str) : rune * nat :=
  match List.rev s with
  | [] => (RuneError, 0%nat)
  | b :: _ =>
      if code b <? 128 then (code b, 1%nat)
      else
        let e := List.length s in
        (* start-- from end-1, down to max(0, end-4) *)
        let start := last_start s (e - 1) 3 in
        let '(r, size) := decode_rune (skipn start s) in
        if Nat.eqb (start + size) e then (r, size) else (RuneError, 1%nat)
  end.

(** [for i, c := range s] (language level): list of (byte index, rune). Fuel is the length. Used in
    pkg/utils/runesranges.go:67 and expand/expand.go:39. *)
Fixpoint range_from (fuel : nat) (i : nat) (s : str) : list (nat * rune) :=
  match fuel with
  | O => []
  | S f =>
      match s with
      | [] => []
      | _ => let '(r, n) := decode_rune s in (i, r) :: range_from f (i + n) (skipn n s)
      end
  end.
(** [for i, c := range s] over a whole string (language level), as in pkg/utils/runesranges.go:67
    and expand/expand.go:39. *)
Definition range (s : str) : list (nat * rune) := range_from (List.length s) 0 s.

(** First index of rune [r] in [range s], for strings.IndexRune below (used in
    pkg/items/rune.go:55). *)
Fixpoint find_rune (r : rune) (l : list (nat * rune)) : option nat :=
  match l with
  | [] => None
  | (i, c) :: t => if c =? r then Some i else find_rune r t
  end.

(** strings.IndexRune: ASCII by byte search, RuneError by iteration, invalid runes never found,
    otherwise substring search for the encoding. Go standard library, not a file of /repo; used in
    pkg/items/rune.go:55. *)
Definition index_rune (s : str) (r : rune) : option nat :=
  if r <? 128 then index_byte s (byte_of r)
  else if r =? RuneError then find_rune RuneError (range s)
  else if negb (valid_rune r) then None
  else index_of s (encode_rune r).
