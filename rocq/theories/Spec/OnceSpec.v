(** The globs a tree reports at most once: in how many ways they match is settled by their text. *)
From Verif Require Import Model.Tree Spec.GlobSpec Spec.EndSpec.

(** Only further '*' and '?' come after a '*', and in every list the values are literal text, none the beginning of another. *)
Definition one_way (g : str) : Prop :=
  (forall a b, g = a ++ "*"%char :: b -> forall c, In c b -> c = "*"%char \/ c = "?"%char) /\
  (forall a body b, g = a ++ braced body ++ b -> ~ In "}"%char body ->
    (forall v, alternative body v -> literal_text v) /\
    (forall v x, alternative body v -> alternative body (v ++ x) -> x = [])).
