(** Dotted globs and queries whose globs never panic and are read back from their normalised text as the same glob. *)
From Verif Require Import Model.GTags Spec.Symbols Spec.GlobSpec Spec.ApartSpec Spec.Neat Spec.GGlobSpec Spec.TagSpec Spec.QuerySpec Spec.SelectSpec.

Definition steady (g : str) : Prop := neat g /\ calm_glob g.
(** Every part of the dotted glob is. *)
Definition steady_parts (text : str) : Prop := forall gs p, accepted_parts text gs -> In p gs -> steady p.
(** The values of '=' and '!=' with wildcards are. *)
Definition steady_query (q : str) : Prop :=
  forall l s k op v, query_text q l -> In s l -> condition_text s k op v -> op = OpEq \/ op = OpNe -> wild v -> steady v.
