(** Trees of tag queries. *)
From Verif Require Import Model.GTags Spec.TagSpec Spec.RegistrySpec.
From Coq Require Export Permutation.

(** The canonical text of a query. *)
Definition tg_canon (rx : regexps) (q : str) : res str := bind (parse_series rx q) (fun ts => Ok (terms_write ts)).
(** No condition of the query has a blank key. *)
Definition named_keys (rx : regexps) (q : str) : Prop := forall ts t, parse_series rx q = Ok ts -> In t ts -> tt_key t <> [].
(** t is a condition of an accepted query. *)
Definition accepted_term (rx : regexps) (E : list entry) (t : tterm) : Prop :=
  exists e ts, In e E /\ parse_series rx (e_text e) = Ok ts /\ In t ts.
(** On these tags the conditions of accepted queries can be evaluated, and conditions written alike agree. *)
Definition tags_coherent (rx : regexps) (E : list entry) (tags : list tag) : Prop :=
  (forall t v, accepted_term rx E t -> value_of tags (tt_key t) = Some v -> exists b, tt_match rx t v = Ok b) /\
  (forall t u v, accepted_term rx E t -> accepted_term rx E u -> condition t = condition u -> value_of tags (tt_key t) = Some v ->
     tt_match rx t v = tt_match rx u v).
