(** Dotted globs with stars inside list values: the parts match up to the MaxLen of each. *)
From Verif Require Import Model.GGlob Spec.Symbols Spec.Class Spec.GlobSpec Spec.StarSpec Spec.GGlobSpec.

(** The globs that match what they denote up to their MaxLen (C21). *)
Definition part_glob (g : str) : Prop := clean g /\ ~ In (byte_of 0) g /\ plain_singles g /\ ~ only_star g /\ regular_stars g.
(** The text is not longer than the MaxLen of the glob, if that is positive. *)
Definition fits (g : glob) (s : str) : Prop := (g_max g <= 0 \/ Z.of_nat (length s) <= g_max g)%Z.
