(** Queries whose reported matches can be relied on, whatever the lists in their globs look like (C80). *)
From Verif Require Import Model.GTags Spec.Symbols Spec.GlobSpec Spec.ApartSpec Spec.TagSpec Spec.QuerySpec Spec.SelectSpec.

(** The values of '=' are well-formed texts; their globs have no '?' or no list that brings a wildcard next to a star, no control
    characters U+0000 and U+007F, and the classes and lists that can be written down. *)
Definition tame_query (q : str) : Prop :=
  forall l s k v, query_text q l -> In s l -> condition_text s k OpEq v -> clean v /\
    (wild v -> ~ In (byte_of 0) v /\ ~ In (byte_of 127) v /\ plain_singles v /\ plain_classes v /\ calm_glob v).
(** Every condition of the query is satisfied, except possibly those with '!='. *)
Definition mostly_selects (rx : regexps) (q : str) (tags : list tag) : Prop :=
  exists l, query_text q l /\ forall s, In s l -> satisfied rx s tags \/ exists k v, condition_text s k OpNe v.
