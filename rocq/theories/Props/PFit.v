(** C38, C39, C42: dotted globs with stars inside list values. *)
From Verif Require Import Model.GGlob Spec.Symbols Spec.Class Spec.GlobSpec Spec.StarSpec Spec.ApartSpec Spec.Neat Spec.PathSpec Spec.RegistrySpec Spec.GGlobSpec Spec.SteadySpec Spec.FitSpec.
From Verif Require Import Proof.CheckP Proof.CheckNeatP Proof.PathP Proof.GGlobP Proof.RegistryP Proof.GTreeP Proof.CheckP Proof.GlobTop Proof.GGlobTop Proof.SteadyTop.
From Verif Require Import Proof.FitTop.


(** C38: for globs with stars anywhere in list values GGlob.Match gives an answer, and it accepts exactly the paths without an empty part
    that are denoted part by part, no part longer than the MaxLen of its glob and the whole not longer than that of the dotted glob. *)
Theorem c38_stars : forall (text : str) (gs : list str) (g : gglob) (path : str) (ps : list str),
  accepted_parts text gs -> Forall part_glob gs -> gg_parse text = Ok g -> clean path \/ lone_parts text -> parts_of path ps ->
  exists b, gg_match g path = Ok b /\
    (b = true <-> ~ In [] ps /\ Forall2 part_denotes gs ps /\ Forall2 fits (gg_parts g) ps /\ (gg_max g <= 0 \/ Z.of_nat (length (dotted ps)) <= gg_max g)%Z).
Proof. exact c38_stars_l. Qed.
Print Assumptions c38_stars.

(** The list value 'a*b' has text after its star; the other value sets the MaxLen of the part. *)
Definition ft_text : str := B "x*.{a*b,cdef}[0-9]".
Definition ft_parts : list str := [B "x*"; B "{a*b,cdef}[0-9]"].
Lemma ft_part g : node_glob_b g && regular_stars_b g = true -> part_glob g.
Proof.
  intro H. apply andb_prop in H as [N R]. destruct (node_glob_ok g N) as (C & Z & _ & P & Q). split; [exact C|]. split; [exact Z|]. split; [exact P|]. split; [now apply plain_not_star|now apply regular_stars_ok].
Qed.
Lemma ft_accepted : accepted_parts ft_text ft_parts.
Proof. right. split; [now intros [Z|[Z|[]]]|]. left. apply parts_of_iff. split; [discriminate|reflexivity]. Qed.
Lemma ft_good : Forall part_glob ft_parts.
Proof. repeat (apply Forall_cons; [apply ft_part; vm_compute; reflexivity|]). apply Forall_nil. Qed.
Example c38_stars_example : exists g, accepted_parts ft_text ft_parts /\ Forall part_glob ft_parts /\ gg_parse ft_text = Ok g /\ gg_max g = (-1)%Z /\ map g_max (gg_parts g) = [(-1)%Z; 5%Z] /\
  clean (B "xy.ab7") /\ gg_match g (B "xy.ab7") = Ok true /\ gg_match g (B "xy.azb7") = Ok true /\ gg_match g (B "xy.azzzb7") = Ok false.
Proof.
  eexists. split; [exact ft_accepted|]. split; [exact ft_good|]. split; [vm_compute; reflexivity|]. do 2 (split; [vm_compute; reflexivity|]).
  split; [apply clean_b_ok; vm_compute; reflexivity|]. do 2 (split; [vm_compute; reflexivity|]). vm_compute; reflexivity.
Qed.

(** C39: so does MatchByParts without a length, for the MaxLen of the parts. *)
Theorem c39_stars : forall (text : str) (gs : list str) (g : gglob) (ps : list str),
  accepted_parts text gs -> Forall part_glob gs -> gg_parse text = Ok g -> Forall clean ps \/ lone_parts text ->
  exists b, gg_match_by_parts g ps 0 = Ok b /\ (b = true <-> ps <> [] /\ Forall2 part_denotes gs ps /\ Forall2 fits (gg_parts g) ps).
Proof. exact c39_stars_l. Qed.
Print Assumptions c39_stars.

Example c39_stars_example : exists g, accepted_parts ft_text ft_parts /\ Forall part_glob ft_parts /\ gg_parse ft_text = Ok g /\
  gg_match_by_parts g [B "xy"; B "azb7"] 0 = Ok true /\ gg_match_by_parts g [B "xy"; B "azzzb7"] 0 = Ok false.
Proof. eexists. split; [exact ft_accepted|]. split; [exact ft_good|]. split; [vm_compute; reflexivity|]. split; vm_compute; reflexivity. Qed.

(** C42: and a GGlobTree of such globs, whose parts are read back from their normalised text, reports exactly those of which every part
    denotes the part of the path, no part longer than the MaxLen of its glob, each once. *)
Theorem c42_stars : forall (calls : list (str * Z)) (gt : gglob_tree) rs (E : list entry) (path : str) (ps : list str),
  run_adds ggt_add ggt_new calls = Ok (gt, rs) -> history gg_canon calls rs E ->
  (forall e gs p, In e E -> accepted_parts (e_text e) gs -> In p gs -> neat p /\ regular_stars p) -> clean path \/ (forall e, In e E -> lone_parts (e_text e)) -> parts_of path ps ->
  exists l, ggt_match gt path = Ok (l, length l) /\ NoDup l /\
    forall q i, In (q, i) l <-> ~ In [] ps /\ exists e g gs, In e E /\ e_node e = q /\ e_index e = i /\ accepted_parts (e_text e) gs /\ gg_parse (e_text e) = Ok g /\
      Forall2 part_denotes gs ps /\ Forall2 fits (gg_parts g) ps.
Proof. exact c42_stars_l. Qed.
Print Assumptions c42_stars.

Example c42_stars_example : let calls := [(ft_text, 1%Z); (B "x*.a*", 2%Z)] in exists gt rs E, run_adds ggt_add ggt_new calls = Ok (gt, rs) /\ history gg_canon calls rs E /\
  (forall e gs p, In e E -> accepted_parts (e_text e) gs -> In p gs -> neat p /\ regular_stars p) /\
  ggt_match gt (B "xy.azb7") = Ok ([(ft_text, 1%Z); (B "x*.a*", 2%Z)], 2) /\ ggt_match gt (B "xy.azzzb7") = Ok ([(B "x*.a*", 2%Z)], 1).
Proof.
  cbv zeta. destruct (ggt_history [(ft_text, 1%Z); (B "x*.a*", 2%Z)]) as (gt & rs & E & R & H & _). exists gt, rs, E. split; [exact R|]. split; [exact H|].
  destruct (history_entries _ _ _ _ H) as [EE _]. vm_compute in R. injection R as <- <-. split; [|split; vm_compute; reflexivity].
  assert (A2 : accepted_parts (B "x*.a*") [B "x*"; B "a*"]) by (right; split; [now intros [Z|[Z|[]]]|]; left; apply parts_of_iff; split; [discriminate|reflexivity]).
  vm_compute in EE. subst E. intros e gs p [<-|[<-|[]]] A Ip.
  - rewrite (accepted_fun _ _ _ ft_accepted A) in Ip. destruct Ip as [<-|[<-|[]]]; (split; [apply steady_ok|apply regular_stars_ok]; vm_compute; reflexivity).
  - rewrite (accepted_fun _ _ _ A2 A) in Ip. destruct Ip as [<-|[<-|[]]]; (split; [apply steady_ok|apply regular_stars_ok]; vm_compute; reflexivity).
Qed.
