(** Globs in which no list brings a wildcard next to a star.  Nothing here refers to the parser or the matcher. *)
From Verif Require Import Model.Utf8 Spec.Symbols Spec.Class Spec.GlobSpec Spec.StarSpec.

(** A list whose values all start with a character or a class. *)
Definition fixed_list (b : str) : Prop :=
  exists body b', b = braced body ++ b' /\ ~ In "}"%char body /\ forall v, alternative body v -> starts_fixed v.
(** [apart g]: a list that directly follows a wildcard, with a '*' somewhere before, has values that start with a
    character or a class; a list with a value that is open at its end (has a star and does not end with a character)
    is followed by a character, a class with a member, a list as above, or ends the glob. *)
Definition apart (g : str) : Prop :=
  forall a body b, g = a ++ braced body ++ b -> ~ In "}"%char body ->
    (In "*"%char a -> (exists p c, a = p ++ [c] /\ In c (B "*?]")) -> forall v, alternative body v -> starts_fixed v) /\
    ((exists v, alternative body v /\ ~ closed_value v) -> b = [] \/ starts_fixed b \/ fixed_list b).
(** Globs that do not panic and report no false match, whatever else their lists look like.  A '*' asks for well-formed UTF-8
    without U+FFFD: a lone malformed byte is read as U+FFFD, which has three bytes. *)
Definition calm_glob (g : str) : Prop := (clean g \/ ~ In "*"%char g) /\ (~ In "?"%char g \/ apart g).
