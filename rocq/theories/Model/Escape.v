(** pkg/escape: url.go, escape.go, unescape.go.  Definitions only. *)
From Verif Require Export Model.Utils.

(** encoding, url.go:15-25 *)
Inductive encoding :=
| encodePath | encodePathSegment | encodeHost | encodeZone | encodeUserPassword
| encodeQueryComponent | encodeFragment.

(** Membership in a literal set of characters (Go [switch c { case ... }]), url.go:48-62 and 99-102.
    *)
Definition among (c : ascii) (set : str) : bool := existsb (Ascii.eqb c) set.

(** ASCII letters and digits, url.go:34 *)
Definition alnum (c : ascii) : bool :=
  let n := code c in
  ((97 <=? n) && (n <=? 122) || (65 <=? n) && (n <=? 90) || (48 <=? n) && (n <=? 57))%N.

(** The character 34, a double quote, as in url.go:49. *)
Definition quot : ascii := byte_of 34.
(** The character 39, a single quote, as in url.go:49. *)
Definition apos : ascii := byte_of 39.

(** shouldEscape, url.go:32-107 *)
Definition should_escape (c : ascii) (mode : encoding) : bool :=
  if alnum c then false
  else
    let host := match mode with encodeHost | encodeZone => true | _ => false end in
    if host && among c (apos :: quot :: B "!$&()*+,;=:[]<>") then false
    else if among c (B "-_.~") then false
    else
      let tail :=
        match mode with
        | encodeFragment => negb (among c (B "!()*"))
        | _ => true
        end in
      if among c (B "$&+,/:;=?@") then
        match mode with
        | encodePath => Ascii.eqb c "?"
        | encodePathSegment => among c (B "/;,?")
        | encodeUserPassword => among c (B "@/?:")
        | encodeQueryComponent => true
        | encodeFragment => false
        | _ => tail
        end
      else tail.

(** [mode == encodeQueryComponent], url.go:114, 149 and 171 *)
Definition is_query (mode : encoding) : bool := match mode with encodeQueryComponent => true | _ => false end.
(** [c == ' '], url.go:114, 139, 149 and 171 *)
Definition is_space (c : ascii) : bool := Ascii.eqb c " ".

(** ["0123456789ABCDEF"[n]], url.go:154-155 and 175-176 *)
Definition upperhex (n : N) : ascii := nth (N.to_nat n) (B "0123456789ABCDEF") zero.

(** '%' and the two hexadecimal digits, url.go:153-155 *)
Definition percent (c : ascii) : str :=
  ["%"%char; upperhex (N.shiftr (code c) 4); upperhex (N.land (code c) 15)].

(** The counting loop, url.go:110-120: (spaceCount, hexCount) *)
Definition escape_counts (s : str) (mode : encoding) : nat * nat :=
  fold_left (fun '(sp, hx) c =>
    if should_escape c mode then
      if is_space c && is_query mode then (S sp, hx) else (sp, S hx)
    else (sp, hx)) s (0, 0).

(** escape, url.go:109-163.  The byte array t of length [required] is written left to
    right without gaps; it is modelled as a concatenation. *)
Definition escape (s : str) (mode : encoding) : str :=
  let '(sp, hx) := escape_counts s mode in
  if Nat.eqb sp 0 && Nat.eqb hx 0 then s
  else if Nat.eqb hx 0 then map (fun c => if is_space c then "+"%char else c) s
  else concat (map (fun c =>
         if is_space c && is_query mode then ["+"%char]
         else if should_escape c mode then percent c
         else [c]) s).

(** The loop of escapeTo, url.go:167-180: state (i, pos, written). *)
Fixpoint escape_to_loop (s rest : str) (mode : encoding) (i pos : nat) (sb : str) : nat * str :=
  match rest with
  | [] => (pos, sb)
  | c :: t =>
      if should_escape c mode then
        escape_to_loop s t mode (S i) (S i)
          (sb ++ firstn (i - pos) (skipn pos s)
              ++ (if is_space c && is_query mode then ["+"%char] else percent c))
      else escape_to_loop s t mode (S i) pos sb
  end.
(** escapeTo, url.go:165-188: the new contents of the buffer; [pos < len(s)-1] is
    [S pos < len s] for natural numbers. *)
Definition escape_to (s : str) (mode : encoding) (sb : str) : str :=
  let '(pos, sb) := escape_to_loop s s mode 0 0 sb in
  if Nat.eqb pos 0 then sb ++ s
  else if (S pos <? length s)%nat then sb ++ skipn pos s
  else sb.

(** Path, escape.go:8-10 *)
Definition path (s : str) : str := escape s encodePath.
(** PathTo, escape.go:12-14 *)
Definition path_to (s sb : str) : str := escape_to s encodePath sb.
(** Query, escape.go:17-19 *)
Definition query (s : str) : str := escape s encodeQueryComponent.
(** QueryTo, escape.go:21-23 *)
Definition query_to (s sb : str) : str := escape_to s encodeQueryComponent sb.

(** ishex, unescape.go:9-19 *)
Definition ishex (c : ascii) : bool :=
  let n := code c in
  ((48 <=? n) && (n <=? 57) || (97 <=? n) && (n <=? 102) || (65 <=? n) && (n <=? 70))%N.
(** unhex, unescape.go:21-31 *)
Definition unhex (c : ascii) : N :=
  let n := code c in
  (if (48 <=? n) && (n <=? 57) then n - 48
   else if (97 <=? n) && (n <=? 102) then n - 97 + 10
   else if (65 <=? n) && (n <=? 70) then n - 65 + 10
   else 0)%N.

(** The loop of unescape, unescape.go:44-62 (isPercentEscape, lines 33-35, inlined: its length
    test is the one already made). *)
Fixpoint unescape_loop (s : str) : str :=
  match s with
  | [] => []
  | c :: t =>
      if Ascii.eqb c "%" then
        match t with
        | a :: b :: r =>
            (if ishex a && ishex b then [byte_of (N.lor (N.shiftl (unhex a) 4) (unhex b))]
             else [c; a; b]) ++ unescape_loop r
        | _ => s
        end
      else if Ascii.eqb c "+" then " "%char :: unescape_loop t
      else c :: unescape_loop t
  end.

(** unescape, unescape.go:38-65: the new contents of the builder and the returned string
    (the part of the builder from pos on). *)
Definition unescape_at (s : str) (first : nat) (sb : str) : str * str :=
  let sb' := sb ++ firstn first s ++ unescape_loop (skipn first s) in
  (sb', skipn (length sb) sb').

(** unescapeSet, unescape.go:67 *)
Definition unescape_first (s : str) : option nat := find_byte (fun c => among c (B "%+")) s.

(** Unescape, unescape.go:69-77 *)
Definition unescape (s : str) : str :=
  match unescape_first s with
  | None => s
  | Some first => snd (unescape_at s first [])
  end.

(** UnescapeTo, unescape.go:81-88: (builder, result) *)
Definition unescape_to (s sb : str) : str * str :=
  match unescape_first s with
  | None => (sb, s)
  | Some first => unescape_at s first sb
  end.

(** UnescapeNameTo, unescape.go:92-109: (builder, name, nameTag) *)
Definition unescape_name_to (s sb : str) : str * str * str :=
  match unescape_first s with
  | None =>
      let pos := length sb in
      let sb1 := sb ++ B "__name__=" in
      let sb2 := sb1 ++ s in
      (sb2, skipn (length sb1) sb2, skipn pos sb2)
  | Some first =>
      let pos := length sb in
      let sb1 := sb ++ B "__name__=" in
      let '(sb2, name) := unescape_at s first sb1 in
      (sb2, name, skipn pos sb2)
  end.
