(** Globs whose normalised text is read back as the same glob. *)
From Verif Require Import Model.Utf8 Spec.Symbols Spec.Class Spec.GlobSpec.

(** No class has members on both sides of a change of the encoded length above ASCII (the
    two-byte symbols end with code point 2047, the three-byte ones with 65535). *)
Definition neat_classes (g : str) : Prop :=
  forall a body b, g = a ++ bracketed body ++ b -> ~ In "]"%char body ->
    ~ (in_class body 2047%N /\ in_class body 2048%N) /\ ~ (in_class body 65535%N /\ in_class body 65536%N).

(** The values of lists are written in normalised form already: they contain no class, no run of
    stars, and no '?' before a star. *)
Definition neat_lists (g : str) : Prop :=
  forall a body b, g = a ++ braced body ++ b -> ~ In "}"%char body ->
    ~ In "["%char body /\ (forall x y, body <> x ++ B "**" ++ y) /\ (forall x y, body <> x ++ B "?*" ++ y).

Definition neat (g : str) : Prop :=
  clean g /\ ~ In (byte_of 0) g /\ ~ In (byte_of 127) g /\ plain_singles g /\ plain_classes g /\ neat_classes g /\ neat_lists g.
