(** What the errors say.  Nothing here refers to the parsers. *)
From Verif Require Import Model.GTags Spec.Symbols Spec.Class Spec.GlobSpec Spec.Accept Spec.PathSpec Spec.TagSpec Spec.QuerySpec.

Definition brackets : list ascii := ["["; "]"; "{"; "}"]%char.

(** [complains g e]: reading g from the left, the first thing that cannot be accepted is the one e names:
    a closing bracket that closes nothing (named with all that follows), a class with a reversed or unacceptable
    interval, a class or a list that is not closed, or something of this kind within a value of a list. *)
Inductive complains : str -> err -> Prop :=
| co_stray a c t : accepted a -> c = "]"%char \/ c = "}"%char -> complains (a ++ c :: t) (ErrNodeUnclosed (c :: t))
| co_class a body b : accepted a -> ~ In "]"%char body -> ~ good_class body ->
    complains (a ++ bracketed body ++ b) (ErrNodeMissmatch (B "rune") (bracketed body))
| co_open_class a t : accepted a -> ~ In "]"%char t -> complains (a ++ "["%char :: t) (ErrNodeMissmatch (B "rune") ("["%char :: t))
| co_open_list a t : accepted a -> ~ In "}"%char t -> complains (a ++ "{"%char :: t) (ErrNodeMissmatch (B "list") ("{"%char :: t))
| co_value a body b v e : accepted a -> ~ In "}"%char body -> alternative body v -> complains v e -> complains (a ++ braced body ++ b) e.

(** The error for the glob text g: a text whose only wildcard is a bracket is named from there on; otherwise the
    complaint is about g without the plain text at its end. *)
Inductive glob_error : str -> err -> Prop :=
| ge_alone a c b : In c brackets -> (forall d, In d (a ++ b) -> ~ In d metas) -> glob_error (a ++ c :: b) (ErrNodeUnclosed (c :: b))
| ge_body h b e : (forall d, In d b -> ~ In d metas) -> complains h e -> glob_error (h ++ b) e.

(** The message of e ends with a piece of g that starts with a bracket. *)
Definition names_piece (g : str) (e : err) : Prop :=
  exists a c t b m, g = a ++ (c :: t) ++ b /\ In c brackets /\ err_text e = m ++ c :: t.
(** The error for any byte string g; [glob_error] is about valid texts. *)
Definition part_error (g : str) (e : err) : Prop := names_piece g e /\ (clean g -> glob_error g e).

(** The error for the dotted glob text s: the first part that is empty or not accepted. *)
Definition gglob_error (s : str) (e : err) : Prop :=
  exists path ps p rest, trimmed s path /\ path = dotted (ps ++ [p]) ++ rest /\ (rest = [] \/ exists r, rest = "."%char :: r) /\ dotless (ps ++ [p]) /\
    (forall q, In q ps -> q <> [] /\ (clean q -> accepted q)) /\
    ((p = [] /\ rest <> [] /\ e = ErrNodeEmpty path) \/ (p <> [] /\ part_error p e)).

(** The error for the text s of a condition: no operator or no key; an operator that does not exist (named from there
    on); a value that is no regular expression; a value that is no glob. *)
Inductive condition_error (rx : regexps) : str -> err -> Prop :=
| ce_none s : (forall c, In c s -> ~ In c (B "=~!")) \/ (exists c t, s = c :: t /\ In c (B "=~!")) -> condition_error rx s (ErrExprInvalid s)
| ce_operator k t : k <> [] -> (forall c, In c k -> ~ In c (B "=~!")) -> (exists u, t = "~"%char :: u) \/ (exists u, t = "!"%char :: u /\ forall w, u <> "="%char :: w) ->
    condition_error rx (k ++ t) (ErrExprInvalid t)
| ce_regexp k op value v : k <> [] -> (forall c, In c k -> ~ In c (B "=~!")) -> op = OpMatch \/ op = OpNotMatch -> bare value v -> rx_ok rx v = false ->
    condition_error rx (k ++ op_string op ++ value) (ErrExprInvalid v)
| ce_glob k op value v e : k <> [] -> (forall c, In c k -> ~ In c (B "=~!")) -> op = OpEq \/ op = OpNe -> (forall w, value <> "~"%char :: w) -> bare value v -> part_error v e ->
    condition_error rx (k ++ op_string op ++ value) e.

(** The error for the query text q: the whole text when it is not seriesByTag(...) or has more than 128 conditions; the rest
    of the arguments from where no quote opens, or the text after a quote that does not close; the error of the first condition that has one. *)
Inductive query_error (rx : regexps) (q : str) : err -> Prop :=
| qe_call : (forall a args b, spaces a -> spaces b -> q <> a ++ B "seriesByTag(" ++ args ++ B ")" ++ b) -> query_error rx q (ErrQueryInvalid q)
| qe_many a args b x l y : spaces a -> spaces b -> q = a ++ B "seriesByTag(" ++ args ++ B ")" ++ b -> args = x ++ y -> quoted_args x l -> length l = 129 ->
    query_error rx q (ErrExprOverflow q)
| qe_bare a args b x l c t : spaces a -> spaces b -> q = a ++ B "seriesByTag(" ++ args ++ B ")" ++ b -> args = x ++ c :: t -> quoted_args x l -> length l <= 128 ->
    ~ quote c -> c <> " "%char -> c <> ","%char -> query_error rx q (ErrNodeNotTerminated (c :: t))
| qe_open a args b x l c t : spaces a -> spaces b -> q = a ++ B "seriesByTag(" ++ args ++ B ")" ++ b -> args = x ++ c :: t -> quoted_args x l -> length l <= 128 ->
    quote c -> ~ In c t -> query_error rx q (ErrNodeNotTerminated t)
| qe_condition l l1 s l2 e : query_text q l -> length l <= 128 -> l = l1 ++ s :: l2 -> (forall s', In s' l1 -> exists t, reads rx s' t) -> condition_error rx s e ->
    query_error rx q e.

(** The arguments of a tagged path up to a piece without '='. *)
Inductive raw_upto (sep : ascii) : str -> list tag -> str -> Prop :=
| ru_here bad : bad <> [] -> ~ In "="%char bad -> raw_upto sep bad [] bad
| ru_more k v rest l bad : ~ In "="%char k -> ~ In sep v -> raw_upto sep rest l bad ->
    raw_upto sep (k ++ "="%char :: v ++ sep :: rest) ((k, v) :: l) bad.

(** What a path decodes to, and the error.  The name ends at the first [nsep]; without one it is all of p.  Tags are collected up to
    a piece without '=', and the error is then about that; otherwise it is about a name that does not end or has a '='. *)
Definition decoding (reason : str -> str) (nsep sep : ascii) (p : str) (tags : list tag) (e : option err) : Prop :=
  exists name args l, ((p = name ++ nsep :: args /\ ~ In nsep name) \/ (p = name /\ ~ In nsep name /\ args = [])) /\
    tags = (B "__name__", unescape name) :: map decode_tag l /\
    ((raw_args sep args l /\
       ((In nsep p /\ ~ In "="%char name /\ e = None) \/ (~ (In nsep p /\ ~ In "="%char name) /\ e = Some (ErrPathInvalid (B "name") (reason name))))) \/
     (exists bad, raw_upto sep args l bad /\ e = Some (ErrPathInvalid [] (B "not delimited with =")))).
