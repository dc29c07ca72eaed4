(** Trees of globs whose lists may hold stars.  Definitions only. *)
From Verif Require Import Model.Tree Spec.Symbols Spec.GlobSpec Spec.StarSpec Spec.EndSpec Spec.Safe Spec.RegistrySpec.

(** The globs of such a tree: like [tree_glob], with stars allowed in the values of lists; only '*' and '?' come after
    a star in a value (otherwise Match may not return). *)
Definition star_glob (g : str) : Prop := clean g /\ ~ In zero g /\ plain_singles g /\ regular_stars g /\ stars_last g.

(** Items that end with a star. *)
Definition star_end (its : list item) : Prop := exists a k, its = a ++ [IStar k].
(** A star, or a list with a value that ends with a star. *)
Definition star_item (it : item) : Prop :=
  (exists k, it = IStar k) \/ exists vals mn mx v, it = IGroup vals mn mx /\ In v vals /\ star_end (val_items v).

(** The glob of the entry e is shadowed: its items end with a star, or with one symbol or text after a star or after a
    list with a value that ends with a star; and another accepted glob has the same prefix and suffix and goes on after
    the same items.  Without stars in lists this is [hidden]. *)
Definition shadowed (E : list entry) (e : entry) : Prop :=
  exists e' g g', In e' E /\ glob_parse (e_text e) = Ok g /\ glob_parse (e_text e') = Ok g' /\
    g_prefix g' = g_prefix g /\ g_suffix g' = g_suffix g /\
    (star_end (g_items g) \/ exists a i it, g_items g = a ++ [i; it] /\ star_item i /\ literal_item it) /\
    exists its more, g_items g' = its ++ more /\ more <> [] /\ Forall2 (fun a b => item_equal a b = true) its (g_items g).
