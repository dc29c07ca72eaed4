(** Trees of globs (GlobTree): what the calls of Add leave behind, and what Match should report. *)
From Verif Require Import Model.Tree Spec.Symbols Spec.GlobSpec Spec.Safe Spec.RegistrySpec.

(** The canonical text of a glob: what Parse stores in Node. *)
Definition gl_canon (text : str) : res str := bind (glob_parse text) (fun g => Ok (g_node g)).

(** Globs whose own matching is exact (see Spec/GlobSpec.v). *)
Definition tree_glob (g : str) : Prop := clean g /\ ~ In zero g /\ plain_singles g /\ regular g.

(** A glob that Parse reduces to plain text: the tree stores it at its root and never looks at it. *)
Definition plain_text (text : str) : Prop := exists g, glob_parse text = Ok g /\ g_items g = [].

(** Items that end with a star, or with a star and one symbol or text. *)
Definition open_end (its : list item) : Prop :=
  exists a k, its = a ++ [IStar k] \/ exists it, literal_item it /\ its = a ++ [IStar k; it].

(** The glob of the entry e is hidden: its items have an open end, and another accepted glob has the
    same prefix and suffix and goes on after the same items. *)
Definition hidden (E : list entry) (e : entry) : Prop :=
  exists e' g g', In e' E /\ glob_parse (e_text e) = Ok g /\ glob_parse (e_text e') = Ok g' /\
    g_prefix g' = g_prefix g /\ g_suffix g' = g_suffix g /\ open_end (g_items g) /\
    exists its more, g_items g' = its ++ more /\ more <> [] /\ Forall2 (fun a b => item_equal a b = true) its (g_items g).
