(** The globs on which matching in a tree of globs can be relied on to end, and those on which it never does. *)
From Verif Require Import Model.Tree Spec.GlobSpec.

(** In the values of the lists of g, only further '*' and '?' come after a '*'. *)
Definition stars_last (g : str) : Prop :=
  forall a body b v x y, g = a ++ braced body ++ b -> ~ In "}"%char body -> alternative body v -> v = x ++ "*"%char :: y ->
    forall c, In c y -> c = "*"%char \/ c = "?"%char.

(** Text without wildcard characters. *)
Definition literal_text (s : str) : Prop := forall c, In c s -> ~ In c metas.
(** g is p{...,u*w,...}q, with at least one other value and without the value "*"; p, u, w, q are text, w is not empty. *)
Definition star_inside (g p u w q : str) : Prop :=
  exists body, g = p ++ braced body ++ q /\ ~ In "}"%char body /\
    literal_text p /\ literal_text u /\ literal_text w /\ literal_text q /\ w <> [] /\
    alternative body (u ++ "*"%char :: w) /\ ~ alternative body (B "*") /\
    exists v, alternative body v /\ v <> u ++ "*"%char :: w.
