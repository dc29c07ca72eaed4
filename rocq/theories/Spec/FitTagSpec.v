(** Queries with stars inside list values: what they select up to the MaxLen of their globs. *)
From Verif Require Import Model.GTags Spec.Symbols Spec.GlobSpec Spec.StarSpec Spec.Neat Spec.TagSpec Spec.QuerySpec Spec.SelectSpec Spec.FitSpec.

(** The strings a value of '=' stands for: itself, or what the glob denotes and its MaxLen allows. *)
Definition means_within (v x : str) : Prop := (~ wild v /\ x = v) \/ (wild v /\ denotes v (symbols x) /\ exists g, glob_parse v = Ok g /\ fits g x).
Definition admits_within (rx : regexps) (op : tagop) (v x : str) : Prop :=
  match op with
  | OpEq => means_within v x
  | OpNe => ~ means_within v x
  | OpMatch => rx_match rx v x = true
  | OpNotMatch => rx_match rx v x = false
  end.
Definition satisfied_within (rx : regexps) (s : str) (tags : list tag) : Prop :=
  exists k op v, condition_text s k op v /\
    match value_of tags k with
    | Some x => admits_within rx op v x
    | None => op = OpNe \/ op = OpNotMatch
    end.
Definition selects_within (rx : regexps) (q : str) (tags : list tag) : Prop :=
  exists l, query_text q l /\ forall s, In s l -> satisfied_within rx s tags.
(** The globs of the query may have stars anywhere in list values (C21) and are read back from their normalised text. *)
Definition star_query (q : str) : Prop :=
  forall l s k op v, query_text q l -> In s l -> condition_text s k op v -> op = OpEq \/ op = OpNe -> wild v -> part_glob v /\ neat v.
