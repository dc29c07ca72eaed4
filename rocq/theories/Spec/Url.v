(** Query escaping as RFC 3986 and Go's net/url describe it, byte by byte. *)
From Verif Require Import Model.Bytes.
Local Open Scope N_scope.

(** Letters, digits and the marks - _ . ~ *)
Definition unreserved (c : ascii) : Prop :=
  97 <= code c <= 122 \/ 65 <= code c <= 90 \/ 48 <= code c <= 57 \/
  c = "-"%char \/ c = "_"%char \/ c = "."%char \/ c = "~"%char.

(** Upper case hexadecimal digit of a number below 16. *)
Definition hexdigit (n : N) : ascii := byte_of (if n <? 10 then 48 + n else 55 + n).
Definition percent_form (c : ascii) : str := ["%"%char; hexdigit (code c / 16); hexdigit (code c mod 16)].

(** The escaped form of one byte in a query. *)
Inductive query_byte : ascii -> str -> Prop :=
| qb_plain c : unreserved c -> query_byte c [c]
| qb_space : query_byte " "%char ["+"%char]
| qb_percent c : ~ unreserved c -> c <> " "%char -> query_byte c (percent_form c).

(** Bytes a path keeps as they are. *)
Definition path_plain (c : ascii) : Prop := unreserved c \/ In c (B "$&+,/:;=@").
Inductive path_byte : ascii -> str -> Prop :=
| pb_plain c : path_plain c -> path_byte c [c]
| pb_percent c : ~ path_plain c -> path_byte c (percent_form c).

(** Decoding, as a relation between escaped text and its meaning. A '%' not followed by two
    hexadecimal digits stands for itself together with the (at most two) bytes after it. *)
Definition hexval (c : ascii) (n : N) : Prop :=
  (48 <= code c <= 57 /\ n = code c - 48) \/ (97 <= code c <= 102 /\ n = code c - 87) \/ (65 <= code c <= 70 /\ n = code c - 55).
Inductive decoded : str -> str -> Prop :=
| d_nil : decoded [] []
| d_plus s t : decoded s t -> decoded ("+"%char :: s) (" "%char :: t)
| d_plain c s t : c <> "+"%char -> c <> "%"%char -> decoded s t -> decoded (c :: s) (c :: t)
| d_hex a b x y s t : hexval a x -> hexval b y -> decoded s t ->
    decoded ("%"%char :: a :: b :: s) (byte_of (16 * x + y) :: t)
| d_bad a b s t : ~ ((exists x, hexval a x) /\ (exists y, hexval b y)) -> decoded s t ->
    decoded ("%"%char :: a :: b :: s) ("%"%char :: a :: b :: t)
| d_short s : (length s < 2)%nat -> decoded ("%"%char :: s) ("%"%char :: s).
