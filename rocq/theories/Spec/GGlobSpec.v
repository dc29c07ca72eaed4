(** Dotted globs and trees of them. *)
From Verif Require Import Model.GGlob Spec.Symbols Spec.GlobSpec Spec.StarSpec Spec.PathSpec Spec.RegistrySpec.

(** The parts a glob text is parsed into: all non-empty.  One empty part at the end is ignored. *)
Definition accepted_parts (text : str) (parts : list str) : Prop :=
  (text = [] /\ parts = []) \/ (~ In [] parts /\ (parts_of text parts \/ parts_of text (parts ++ [[]]))).

(** The canonical text: what Parse stores in Node. *)
Definition gg_canon (text : str) : res str := bind (gg_parse text) (fun g => Ok (gg_node g)).

(** g is a part of an accepted glob. *)
Definition part_of (E : list entry) (g : glob) : Prop :=
  exists e gg, In e E /\ gg_parse (e_text e) = Ok gg /\ In g (gg_parts gg).
(** The parts of the accepted globs behave well on s: a part without wildcards matches its canonical
    text only, matching returns a result, and parts with the same canonical text match alike. *)
Definition coherent (E : list entry) (s : str) : Prop :=
  (forall g, part_of E g -> g_items g = [] -> glob_match g s = Ok (str_eqb (g_node g) s)) /\
  (forall g, part_of E g -> exists b, glob_match g s = Ok b) /\
  (forall g g', part_of E g -> part_of E g' -> g_items g <> [] -> g_items g' <> [] -> g_node g = g_node g' ->
     glob_match g s = glob_match g' s).

(** Globs whose matching and canonical text are exact (see Spec/GlobSpec.v and Spec/StarSpec.v). *)
Definition good_glob (g : str) : Prop :=
  clean g /\ ~ In (byte_of 0) g /\ ~ In (byte_of 127) g /\ plain_singles g /\ plain_classes g /\ exact_lists g.

(** The parts of the dotted glob match malformed strings as expected too (see Spec/GlobSpec.v). *)
Definition lone_parts (text : str) : Prop := forall gs, accepted_parts text gs -> Forall lone_classes gs.

(** Part by part, the glob parts denote the path parts. *)
Definition part_denotes (g s : str) : Prop := denotes g (symbols s).
Definition part_matches (g : glob) (s : str) : Prop := glob_match g s = Ok true.
