(** Texts that Expand lists completely (C87). *)
From Verif Require Import Spec.ExpandSpec Spec.GGlobSpec.

(** The text is read as fs, no wildcard is left over in it, everything is well encoded, it has no NUL and no class [-]. *)
Definition enumerable (g : str) (fs : list fac) : Prop :=
  expandable g fs (-1) /\ (forall t, In (Text t) fs -> plain t) /\ (forall f v, In f fs -> In v (values f) -> clean v) /\
  ~ In (byte_of 0) g /\ forall a b, g <> a ++ B "[-]" ++ b.
(** No class of the text has a dot among its members. *)
Definition dotless_classes (g : str) : Prop :=
  forall a body b, g = a ++ bracketed body ++ b -> ~ In "]"%char body -> ~ in_class body (code ".").
Definition no_final_dot (s : str) : Prop := forall q, s <> q ++ B ".".
