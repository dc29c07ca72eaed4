(** Wildcard-free beginnings of globs. *)
From Verif Require Import Model.Utf8 Spec.Symbols Spec.GlobSpec.

(** A symbol that stands for itself in a glob: well-formed and no wildcard character. *)
Definition plain_symbol (x : str) : Prop := exists r, scalar r /\ (forall c, In c metas -> r <> code c) /\ x = encode_rune r.

(** p is a beginning of every glob of the list. *)
Definition common_prefix (p : str) (globs : list str) : Prop := forall g, In g globs -> exists t, g = p ++ t.
