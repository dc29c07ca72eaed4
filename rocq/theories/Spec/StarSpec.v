(** Globs whose lists may hold stars.  Nothing here refers to the parser or the matcher. *)
From Verif Require Import Model.Utf8 Spec.Symbols Spec.Class Spec.GlobSpec.

(** [closed_value v]: the value v has no star, or ends with an ordinary character. *)
Definition closed_value (v : str) : Prop := ~ In "*"%char v \/ exists p c, v = p ++ [c] /\ ~ In c metas.

(** Like [regular], with stars allowed in the values of lists.  A list somewhere after a '*' (a star
    in an earlier list counts too) has values that start with a character or a class and, without
    wildcards in its values, is followed by a '*' or ends the glob.  A list with a value that is open
    at its end (has a star and does not end with a character) is followed by a character, by a class
    with a member, by another list, or ends the glob. *)
Definition regular_stars (g : str) : Prop :=
  forall a body b, g = a ++ braced body ++ b -> ~ In "}"%char body ->
    (In "*"%char a ->
       (forall v, alternative body v -> starts_fixed v) /\
       ((exists c, In c body /\ In c metas) \/ b = [] \/ exists b', b = "*"%char :: b')) /\
    ((exists v, alternative body v /\ ~ closed_value v) ->
       b = [] \/ starts_fixed b \/ exists body' b', b = braced body' ++ b').

(** The globs for which matching is exact, length filter included: moreover, a star in a list value comes
    last.  Without stars in lists this is [regular]. *)
Definition exact_lists (g : str) : Prop := regular_stars g /\ stars_end g.
