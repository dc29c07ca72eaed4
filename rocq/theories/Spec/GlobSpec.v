(** Which strings a glob text denotes.  Nothing here refers to the parser or the matcher. *)
From Verif Require Import Model.Utf8 Spec.Symbols Spec.Class.

(** The wildcard characters. *)
Definition metas : str := B "[]{}*?".
Definition braced (body : str) : str := "{"%char :: body ++ ["}"%char].

(** [alternative body v]: v is one of the comma-separated values of a list body. *)
Definition alternative (body v : str) : Prop :=
  exists a b, body = a ++ v ++ b /\ ~ In ","%char v /\
    (a = [] \/ exists a', a = a' ++ [","%char]) /\ (b = [] \/ exists b', b = ","%char :: b').

(** [denotes g w]: the glob text g matches the symbols w.
    - a symbol that is not a wildcard character stands for itself;
    - '?' stands for one symbol, '*' for any number of symbols;
    - a class [\[..\]] stands for one member of the class; a class without members is ignored;
    - a list [{..}] stands for what one of its values denotes. *)
Inductive denotes : str -> list str -> Prop :=
| d_end : denotes [] []
| d_symbol r p w : scalar r -> (forall c, In c metas -> r <> code c) ->
    denotes p w -> denotes (encode_rune r ++ p) (encode_rune r :: w)
| d_any p x w : denotes p w -> denotes ("?"%char :: p) (x :: w)
| d_star p w1 w2 : denotes p w2 -> denotes ("*"%char :: p) (w1 ++ w2)
| d_class body p r w : ~ In "]"%char body -> scalar r -> in_class body r ->
    denotes p w -> denotes (bracketed body ++ p) (encode_rune r :: w)
| d_no_class body p w : ~ In "]"%char body -> (forall r, ~ in_class body r) ->
    denotes p w -> denotes (bracketed body ++ p) w
| d_list body v p w1 w2 : ~ In "}"%char body -> alternative body v ->
    denotes v w1 -> denotes p w2 -> denotes (braced body ++ p) (w1 ++ w2).

(** Lists all of whose values are the same text contain no wildcard characters (the code takes
    such a value literally). *)
Definition plain_singles (g : str) : Prop :=
  forall a body b, g = a ++ braced body ++ b -> ~ In "}"%char body ->
    (forall v v', alternative body v -> alternative body v' -> v = v') ->
    forall c, In c body -> ~ In c metas.

(** No class of the glob has a wildcard character as its only member. *)
Definition plain_classes (g : str) : Prop :=
  forall a body b c, g = a ++ bracketed body ++ b -> ~ In "]"%char body -> In c metas ->
    ~ (forall r, in_class body r <-> r = code c).

(** Every class of the glob with an ASCII member has no other member. *)
Definition ascii_classes_single (g : str) : Prop :=
  forall a body b r r', g = a ++ bracketed body ++ b -> ~ In "]"%char body ->
    in_class body r -> in_class body r' -> (r < 128)%N -> r' = r.

(** A class of the glob with a member beyond ASCII has no other member: such globs match malformed strings
    as expected too. *)
Definition lone_classes (g : str) : Prop :=
  forall a body b r r', g = a ++ bracketed body ++ b -> ~ In "]"%char body ->
    in_class body r -> in_class body r' -> (128 <= r)%N -> r' = r.

(** [starts_fixed v]: the text v begins with an ordinary character or with a class that has a member. *)
Definition starts_fixed (v : str) : Prop :=
  (exists c p, v = c :: p /\ ~ In c metas) \/
  (exists body p r, v = bracketed body ++ p /\ ~ In "]"%char body /\ in_class body r /\ r <> 0%N).

(** The globs for which matching is exact: a list has no '*' among its values; the values of a list
    somewhere after a '*' start with a character or a class; and such a list, if it has no wildcard
    in its values, is followed by a '*' or ends the glob.
    (Each excluded shape has a counterexample in Props/PGlob.v.) *)
Definition regular (g : str) : Prop :=
  forall a body b, g = a ++ braced body ++ b -> ~ In "}"%char body ->
    ~ In "*"%char body /\
    (In "*"%char a ->
       (forall v, alternative body v -> starts_fixed v) /\
       ((exists c, In c body /\ In c metas) \/ b = [] \/ exists b', b = "*"%char :: b')).

(** In the values of the lists of g, a '*' comes last (or is followed by stars only). *)
Definition stars_end (g : str) : Prop :=
  forall a body b v x y, g = a ++ braced body ++ b -> ~ In "}"%char body -> alternative body v -> v = x ++ "*"%char :: y ->
    forall c, In c y -> c = "*"%char.

(** The one-text language of an escaped star: the code takes Node = "*" for the glob "*". *)
Definition only_star (g : str) : Prop := forall w, denotes g w <-> w = [B "*"].

(** [well_formed g]: every class and list of g is closed, class bodies are acceptable, no closing
    bracket stands alone, and the values of lists are well formed themselves (a value cannot contain
    a list: a list ends at the first closing brace). *)
Inductive well_formed : str -> Prop :=
| wf_end : well_formed []
| wf_text c p : ~ In c metas -> well_formed p -> well_formed (c :: p)
| wf_any p : well_formed p -> well_formed ("?"%char :: p)
| wf_star p : well_formed p -> well_formed ("*"%char :: p)
| wf_class body p : ~ In "]"%char body -> good_class body -> well_formed p -> well_formed (bracketed body ++ p)
| wf_list body p : ~ In "}"%char body -> (forall v, alternative body v -> well_formed v) ->
    well_formed p -> well_formed (braced body ++ p).

(** The same without any condition on the values of lists. *)
Inductive brackets_closed : str -> Prop :=
| bc_end : brackets_closed []
| bc_text c p : ~ In c metas -> brackets_closed p -> brackets_closed (c :: p)
| bc_any p : brackets_closed p -> brackets_closed ("?"%char :: p)
| bc_star p : brackets_closed p -> brackets_closed ("*"%char :: p)
| bc_class body p : ~ In "]"%char body -> good_class body -> brackets_closed p -> brackets_closed (bracketed body ++ p)
| bc_list body p : ~ In "}"%char body -> brackets_closed p -> brackets_closed (braced body ++ p).

(** The byte-wise order of Go strings: a proper prefix comes first, otherwise the first different byte
    decides. *)
Definition byte_order (a b : str) : Prop :=
  (exists c t, b = a ++ c :: t) \/
  exists p c d x y, a = p ++ c :: x /\ b = p ++ d :: y /\ (code c < code d)%N.
