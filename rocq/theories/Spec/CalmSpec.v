(** Dotted globs and queries whose globs never panic (C86). *)
From Verif Require Import Model.GTags Spec.Symbols Spec.GlobSpec Spec.ApartSpec Spec.GGlobSpec Spec.PathSpec Spec.TagSpec Spec.QuerySpec Spec.SelectSpec.

(** Every part of the dotted glob is calm. *)
Definition calm_parts (text : str) : Prop := forall gs p, accepted_parts text gs -> In p gs -> calm_glob p.
(** The values of '=' and '!=' with wildcards are calm globs. *)
Definition calm_query (q : str) : Prop :=
  forall l s k op v, query_text q l -> In s l -> condition_text s k op v -> op = OpEq \/ op = OpNe -> wild v -> calm_glob v.
