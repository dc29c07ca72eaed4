(** C42: trees of dotted globs, all globs. *)
From Verif Require Import Model.GGlob Spec.PathSpec Spec.RegistrySpec Spec.GGlobSpec Spec.FirstSpec.
From Verif Require Import Proof.SortP Proof.ListP Proof.PathP Proof.GGlobP Proof.RegistryP Proof.GTreeP Proof.GGlobTop Proof.FirstP.
From Verif Require Import Proof.FirstTop.


(** C42: for all globs, also for parts that are normalised alike and mean different things: whenever MatchByParts returns, it has stored
    exactly the accepted globs for which every part of the path is matched by the part that stands for theirs (the one that was accepted
    first in that place), each once. *)
Theorem c42_first_parts : forall (calls : list (str * Z)) (gt : gglob_tree) rs (E : list entry) (ps : list str) (l : list term) (n : nat),
  run_adds ggt_add ggt_new calls = Ok (gt, rs) -> history gg_canon calls rs E -> ps <> [] -> ggt_match_by_parts gt ps = Ok (l, n) ->
  n = length l /\ NoDup l /\
  forall q i, In (q, i) l <-> exists e g, In e E /\ e_node e = q /\ e_index e = i /\ gg_parse (e_text e) = Ok g /\ reached E g ps.
Proof. exact c42_first_parts_l. Qed.
Print Assumptions c42_first_parts.

(** C42: the same of Match, for any path; a path with an empty part finds nothing. *)
Theorem c42_first : forall (calls : list (str * Z)) (gt : gglob_tree) rs (E : list entry) (path : str) (ps : list str) (l : list term) (n : nat),
  run_adds ggt_add ggt_new calls = Ok (gt, rs) -> history gg_canon calls rs E -> parts_of path ps -> ggt_match gt path = Ok (l, n) ->
  n = length l /\ NoDup l /\
  forall q i, In (q, i) l <-> ~ In [] ps /\ exists e g, In e E /\ e_node e = q /\ e_index e = i /\ gg_parse (e_text e) = Ok g /\ reached E g ps.
Proof. exact c42_first_l. Qed.
Print Assumptions c42_first.

(** The first glob's part, a star and a class of the one symbol '?', stands for the second glob's '*?'. *)
Example c42_first_example : let E := [mkEntry (B "*[?].x") (B "*?.x") 1%Z; mkEntry (B "*?.y") (B "*?.y") 2%Z] in exists gt rs g1 g2 p,
  run_adds ggt_add ggt_new [(B "*[?].x", 1%Z); (B "*?.y", 2%Z)] = Ok (gt, rs) /\ history gg_canon [(B "*[?].x", 1%Z); (B "*?.y", 2%Z)] rs E /\
  ggt_match gt (B "a?.y") = Ok ([(B "*?.y", 2%Z)], 1) /\ ggt_match gt (B "ab.y") = Ok ([], 0) /\
  gg_parse (B "*[?].x") = Ok g1 /\ gg_parse (B "*?.y") = Ok g2 /\ nth_error (gg_parts g1) 0 = Some p /\ nth_error (gg_parts g2) 0 <> Some p /\
  stands_for E g2 0 p /\ glob_match p (B "a?") = Ok true /\ glob_match p (B "ab") = Ok false.
Proof.
  cbv zeta. destruct (ggt_history [(B "*[?].x", 1%Z); (B "*?.y", 2%Z)]) as (gt & rs & E & R & H & _). exists gt, rs. do 3 eexists. split; [exact R|].
  destruct (history_entries _ _ _ _ H) as [EE _]. vm_compute in R. injection R as <- <-. vm_compute in EE. split; [rewrite EE in H; exact H|].
  do 5 (split; [vm_compute; reflexivity|]). split; [vm_compute; discriminate|]. split; [|split; vm_compute; reflexivity].
  exists [], (mkEntry (B "*[?].x") (B "*?.x") 1%Z), [mkEntry (B "*?.y") (B "*?.y") 2%Z]. eexists. split; [reflexivity|]. split; [vm_compute; reflexivity|].
  split; [|split; [vm_compute; reflexivity|intros ? ? []]]. split; [reflexivity|]. cbn. repeat constructor; cbn; intro X; discriminate.
Qed.
