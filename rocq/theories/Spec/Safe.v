(** The item sequences for which matching is exact.  [safe F]: the items F may stand at the start
    (or after an item other than a star); [safe_star F]: they may stand directly after a star.
    What is excluded is exactly what has a counterexample in Props: '?' directly after a star,
    a star directly after a star (unless it ends the glob), a list of several values after a star
    followed by anything but a star, an alternative without items after a star. *)
From Verif Require Import Model.Glob.

Definition one_item (it : item) : Prop :=
  match it with IStr _ | IByte _ | IRune _ | IAny _ | IRanges _ => True | _ => False end.
Definition literal_item (it : item) : Prop :=
  match it with IStr _ | IByte _ | IRune _ | IRanges _ => True | _ => False end.

Inductive safe : list item -> Prop :=
| safe_nil : safe []
| safe_one it R : one_item it -> safe R -> safe (it :: R)
| safe_list l R : safe R -> safe (IList l :: R)
| safe_starred k R : R = [] \/ safe_star R -> safe (IStar k :: R)
| safe_group vals mn mx R :
    (forall v, In v vals -> safe (val_items v ++ R)) ->
    (mn = 0%Z -> safe R) -> safe (IGroup vals mn mx :: R)
with safe_star : list item -> Prop :=
| ss_one it R : literal_item it -> safe R -> safe_star (it :: R)
| ss_last k : k <= 1 -> safe_star [IStar k]
| ss_list l R : safe R ->
    (sl_min l = 0%Z -> R = [] \/ safe_star R) ->
    (length (sl_vals l) <= 1 \/ R = [] \/ exists k R', R = IStar k :: R') ->
    safe_star (IList l :: R)
| ss_group vals mn mx R :
    (forall v, In v vals -> val_items v <> [] /\ safe_star (val_items v ++ R)) ->
    (mn = 0%Z -> R = [] \/ safe_star R) -> safe_star (IGroup vals mn mx :: R).

(** Upper length bounds that can be trusted: every alternative with a star and something else
    is recorded as unbounded (not the case for text after the star: Chain.Append). *)
Definition sized (it : item) : Prop :=
  match it with
  | IGroup vals _ _ => forall its mn mx k, In (IChain its mn mx) vals -> In (IStar k) its -> mx = (-1)%Z
  | _ => True
  end.

(** [path F r]: r is the beginning of a sequence that arises from F by choosing an alternative of every list
    of alternatives; an optional list may be left out. *)
Inductive path : list item -> list item -> Prop :=
| pa_stop F : path F []
| pa_one it R r : match it with IGroup _ _ _ | IChain _ _ _ => False | _ => True end -> path R r -> path (it :: R) (it :: r)
| pa_no_list l R r : sl_min l = 0%Z -> path R r -> path (IList l :: R) r
| pa_group vals mn mx v R r : In v vals -> path (val_items v ++ R) r -> path (IGroup vals mn mx :: R) r
| pa_no_group vals mn R mx r : mn = 0%Z -> path R r -> path (IGroup vals mn mx :: R) r.
(** Somewhere on a path '?' directly follows a star. *)
Definition star_any (F : list item) : Prop := exists r a k n b, path F r /\ r = a ++ IStar k :: IAny n :: b.
(** Somewhere on a path the replacement symbol U+FFFD, standing alone, directly follows a star.  A lone malformed byte of a glob
    is read as this symbol. *)
Definition star_stray (F : list item) : Prop := exists r a k b, path F r /\ r = a ++ IStar k :: IRune RuneError :: b.
(** What may make matching panic: '?' or U+FFFD directly after a star. *)
Definition star_trap (F : list item) : Prop := star_any F \/ star_stray F.
(** Somewhere on a path a star that needs at least one symbol ("*?" or "?*") directly follows a star. *)
Definition star_more (F : list item) : Prop := exists r a k n b, path F r /\ r = a ++ IStar k :: IStar (S n) :: b.
