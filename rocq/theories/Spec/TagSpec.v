(** Tagged series: the text forms of tags, and what a list of conditions means. *)
From Verif Require Import Model.GTags.

(** The arguments of a tagged path: raw (still escaped) keys and values.  A key ends at the first '=',
    a value at the first separator; one separator at the end is allowed. *)
Inductive raw_args (sep : ascii) : str -> list tag -> Prop :=
| ra_nil : raw_args sep [] []
| ra_last k v : ~ In "="%char k -> ~ In sep v -> raw_args sep (k ++ "="%char :: v) [(k, v)]
| ra_more k v rest l : ~ In "="%char k -> ~ In sep v -> raw_args sep rest l ->
    raw_args sep (k ++ "="%char :: v ++ sep :: rest) ((k, v) :: l).
Definition decode_tag (t : tag) : tag := (unescape (fst t), unescape (snd t)).

(** name?k=v&k=v with everything escaped; for Graphite the separators are both ';'. *)
Definition encode_tag (t : tag) : str := query (fst t) ++ "="%char :: query (snd t).
Definition encode_path (nsep sep : ascii) (name : str) (tags : list tag) : str :=
  query name ++ nsep :: join_with sep (map encode_tag tags).

(** The value a key has in a list of tags when later ones replace earlier ones. *)
Definition last_value (tags : list tag) (k v : str) : Prop :=
  exists a b, tags = a ++ (k, v) :: b /\ forall v', ~ In (k, v') b.

(** The tags as a map. *)
Definition value_of (tags : list tag) (k : str) : option str := lookup str_eqb k tags.

(** One condition on a map of tags: '=' and '=~' need the key with an accepted value; '!=' and '!=~' only
    forbid values. *)
Definition positive (op : tagop) : Prop := op = OpEq \/ op = OpMatch.
Definition holds (rx : regexps) (t : tterm) (tags : list tag) : Prop :=
  match value_of tags (tt_key t) with
  | Some v => tt_match rx t v = Ok true
  | None => ~ positive (tt_op t)
  end.
(** The conditions can be evaluated on the tags. *)
Definition evaluable (rx : regexps) (terms : list tterm) (tags : list tag) : Prop :=
  forall t v, In t terms -> value_of tags (tt_key t) = Some v -> exists b, tt_match rx t v = Ok b.
(** What a value must be for one condition. *)
Definition accepts (rx : regexps) (t : tterm) (v : str) : Prop :=
  match tt_op t with
  | OpEq => match tt_glob t with Some g => glob_match g v = Ok true | None => v = tt_value t end
  | OpNe => match tt_glob t with Some g => glob_match g v = Ok false | None => v <> tt_value t end
  | OpMatch => rx_match rx (tt_value t) v = true
  | OpNotMatch => rx_match rx (tt_value t) v = false
  end.

(** The order of keys in series and queries: __name__ first, the others by bytes. *)
Definition key_lt (a b : str) : Prop := (a = B "__name__" /\ b <> B "__name__") \/ (b <> B "__name__" /\ str_ltb a b = true).
Fixpoint keys_sorted (keys : list str) : Prop :=
  match keys with
  | [] => True
  | k :: r => (forall k', In k' r -> key_lt k k') /\ keys_sorted r
  end.

(** What is written of a condition. *)
Definition condition (t : tterm) : str * tagop * str := (tt_key t, tt_op t, tt_value t).

(** A condition that can be written down and read back: see C60. *)
Definition plain_term (t : tterm) : Prop :=
  tt_key t <> [] /\ ~ In apos (tt_key t) /\ ~ In apos (tt_value t) /\ trim_space (tt_value t) = tt_value t /\
  (tt_op t = OpEq \/ tt_op t = OpNe ->
     (forall v, tt_value t <> "~"%char :: v) /\
     match tt_glob t with Some g => g_glob g = tt_value t | None => has_wildcard (tt_value t) = false end).
