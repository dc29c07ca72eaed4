(** What the body of a character class [\[body\]] denotes. *)
From Verif Require Import Model.Utf8 Spec.Symbols.
Local Open Scope N_scope.

(** The '-' symbol. *)
Definition dash : rune := 45.
Definition is_dash (r : rune) : Prop := r = dash.

(** [class_pairs body ps]: the body, read from left to right, lists the intervals [ps].  A symbol
    stands for itself unless it is joined by '-' to a following symbol; a '-' that does not join two
    symbols (leading, trailing, or after a complete interval) is ignored. *)
Inductive class_pairs : list rune -> list (rune * rune) -> Prop :=
| cp_nil : class_pairs [] []
| cp_dash t ps : class_pairs t ps -> class_pairs (dash :: t) ps
| cp_single c t ps : c <> dash -> (forall d t', t = d :: t' -> d <> dash) ->
    class_pairs t ps -> class_pairs (c :: t) ((c, c) :: ps)
| cp_last c ds : c <> dash -> Forall is_dash ds -> class_pairs (c :: ds) [(c, c)]
| cp_range c ds d t ps : c <> dash -> ds <> [] -> Forall is_dash ds -> d <> dash ->
    class_pairs t ps -> class_pairs (c :: ds ++ d :: t) ((c, d) :: ps).

(** An interval the code accepts: not reversed, and both ends encoded in the same number of bytes. *)
Definition good_pair (p : rune * rune) : Prop :=
  fst p <= snd p /\ length (encode_rune (fst p)) = length (encode_rune (snd p)).

Definition in_pairs (r : rune) (ps : list (rune * rune)) : Prop :=
  exists a b, In (a, b) ps /\ a <= r <= b.

(** [in_class body r]: the symbol r is a member of the class with this body. *)
Definition in_class (body : str) (r : rune) : Prop :=
  exists rs ps, Forall scalar rs /\ body = encode_all rs /\ class_pairs rs ps /\ in_pairs r ps.

(** The body is acceptable: every interval is. *)
Definition good_class (body : str) : Prop :=
  exists rs ps, Forall scalar rs /\ body = encode_all rs /\ class_pairs rs ps /\ Forall good_pair ps.

(** The text of a class. *)
Definition bracketed (body : str) : str := "["%char :: body ++ ["]"%char].
