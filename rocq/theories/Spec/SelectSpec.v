(** Which tags a query text selects: nothing here refers to the parser or the matcher of queries or globs. *)
From Verif Require Import Model.GTags Spec.Symbols Spec.GlobSpec Spec.GGlobSpec Spec.TagSpec Spec.QuerySpec.

Definition wild (v : str) : Prop := exists c, In c v /\ wild_byte c.
(** s is the text of a condition on the key k with the operator op and the value v. *)
Definition condition_text (s k : str) (op : tagop) (v : str) : Prop :=
  exists key value k0, s = key ++ op_string op ++ value /\ key <> [] /\ (forall c, In c key -> ~ In c (B "=~!")) /\
    (op = OpEq \/ op = OpNe -> forall w, value <> "~"%char :: w) /\ bare key k0 /\ bare value v /\
    ((k0 = B "name" /\ k = B "__name__") \/ (k0 <> B "name" /\ k = k0)).
(** The strings a value of '=' stands for: those of a glob, or itself. *)
Definition means (v x : str) : Prop := (~ wild v /\ x = v) \/ (wild v /\ denotes v (symbols x)).
Definition admits (rx : regexps) (op : tagop) (v x : str) : Prop :=
  match op with
  | OpEq => means v x
  | OpNe => ~ means v x
  | OpMatch => rx_match rx v x = true
  | OpNotMatch => rx_match rx v x = false
  end.
(** The tags satisfy the condition: an absent key satisfies '!=' and '!=~' only. *)
Definition satisfied (rx : regexps) (s : str) (tags : list tag) : Prop :=
  exists k op v, condition_text s k op v /\
    match value_of tags k with
    | Some x => admits rx op v x
    | None => op = OpNe \/ op = OpNotMatch
    end.
(** The query selects the tags: all its conditions are satisfied. *)
Definition selects (rx : regexps) (q : str) (tags : list tag) : Prop :=
  exists l, query_text q l /\ forall s, In s l -> satisfied rx s tags.
(** The globs of the query are among those that are matched exactly (see C21). *)
Definition good_query (q : str) : Prop :=
  forall l s k op v, query_text q l -> In s l -> condition_text s k op v -> op = OpEq \/ op = OpNe -> wild v -> good_glob v.
(** ... and its other values of '=' and '!=' are well-formed texts. *)
Definition clean_query (q : str) : Prop :=
  forall l s k op v, query_text q l -> In s l -> condition_text s k op v -> op = OpEq \/ op = OpNe -> clean v.
(** No condition of the query has a blank key. *)
Definition named_query (q : str) : Prop := forall l s k op v, query_text q l -> In s l -> condition_text s k op v -> k <> [].
(** The tags have well-formed values; or the globs of the query match malformed values as expected too. *)
Definition clean_tags (tags : list tag) : Prop := forall k x, In (k, x) tags -> clean x.
Definition lone_query (q : str) : Prop :=
  forall l s k op v, query_text q l -> In s l -> condition_text s k op v -> op = OpEq \/ op = OpNe -> wild v -> lone_classes v.
