(** C87: what Expand lists and what the glob matches. *)
From Verif Require Import Spec.ExpandSpec Model.Glob Model.GGlob Spec.ApartSpec Spec.GGlobSpec Spec.PathSpec Spec.RegistrySpec Spec.AgreeSpec.
From Verif Require Import Proof.SymbolsP Proof.DenotesP Proof.CheckP Proof.PathP Proof.RegistryP Proof.GTreeP Proof.GGlobP Proof.ExpandTop Proof.GlobTop Proof.GGlobTop Proof.AgreeP.
From Verif Require Import Proof.AgreeTop.


(** C87: a text that Expand lists completely is accepted by Parse, and the glob matches a string exactly when Expand lists it. *)
Theorem c87_glob : forall (g : str) (fs : list fac) (rs : list str), enumerable g fs -> expand g (-1) 0 = Ok rs ->
  exists gl, glob_parse g = Ok gl /\ forall s : str, exists b, glob_match gl s = Ok b /\ (b = true <-> In s rs).
Proof. exact c87_glob_l. Qed.
Print Assumptions c87_glob.

Definition demo3 : str := B "a{b,c}.d[x-z]".
Definition demo3_factors : list fac := [Text (B "a"); Choice (B "{b,c}") [B "b"; B "c"]; Text (B ".d"); Choice (B "[x-z]") [B "x"; B "y"; B "z"]; Text []].
Lemma demo3_enumerable : enumerable demo3 demo3_factors.
Proof.
  split; [|split; [|split; [|split]]].
  - split; [|split; [intros [_ X]; discriminate|split; [vm_compute; congruence|]]].
    + apply (f_pair (B "a") (B "{b,c}") _ (B ".d[x-z]")); [plain_tac|apply (b_list (B "b,c")); [plain_tac|cbn; auto|]; split; [discriminate|]; split; [reflexivity|]; plain_tac|].
      apply (f_pair (B ".d") (B "[x-z]") _ []); [plain_tac| |apply (f_rest [] []); [constructor|]; split; [discriminate|]; intros (b & r & _ & [X|X]); discriminate].
      assert (NC : forall r, in_class (B "x-z") r -> In (encode_rune r) [B "x"; B "y"; B "z"]) by (intros r I; destruct class_xz as (rs & _ & M & E); rewrite E; apply List.in_map; now apply M).
      apply (b_class (B "x-z")); [plain_tac|cbn; lia| | | |exact class_xz|discriminate].
      * exists [120; 45; 122]%N, [(120, 122)]%N. split; [repeat constructor; vm_compute; congruence|]. split; [reflexivity|]. split; [|repeat constructor; vm_compute; congruence].
        apply (cp_range 120%N [45%N] 122%N [] []); [discriminate|discriminate|repeat constructor|discriminate|constructor].
      * intro I. apply NC in I. vm_compute in I. intuition discriminate.
      * intro I. apply NC in I. vm_compute in I. intuition discriminate.
    + split; [lia|]. intros r vs I. lia.
  - intros t I. cbn in I. repeat (destruct I as [I|I]; [try discriminate; injection I as <-; plain_tac|]). destruct I.
  - intros f v I J. apply clean_b_ok. cbn [In demo3_factors] in I. repeat (destruct I as [<-|I]; [cbn [values In] in J; repeat (destruct J as [<-|J]; [vm_compute; reflexivity|]); destruct J|]). destruct I.
  - vm_compute. intuition discriminate.
  - intros a b X. change demo3 with ((B "a{b,c}.d[x") ++ "-"%char :: B "z]") in X. change (a ++ B "[-]" ++ b) with (a ++ B "[" ++ "-"%char :: "]"%char :: b) in X. rewrite (app_assoc a) in X.
    apply once in X as [_ X]; [discriminate|vm_compute; intuition discriminate|]. intro I. apply in_app_or in I as [I|[I|[]]]; [|discriminate].
    apply (f_equal (fun l => count_occ Ascii.ascii_dec l "-"%char)) in X. match type of X with ?l = _ => change l with 1 in X end. rewrite <- app_assoc, !count_occ_app in X. apply (count_occ_In Ascii.ascii_dec) in I.
    assert (G : 1 <= count_occ Ascii.ascii_dec ("-"%char :: "]"%char :: b) "-"%char) by (rewrite count_occ_cons_eq by reflexivity; lia). lia.
Qed.
Example c87_example : enumerable demo3 demo3_factors /\ expand demo3 (-1) 0 = Ok (map B ["ab.dx"; "ab.dy"; "ab.dz"; "ac.dx"; "ac.dy"; "ac.dz"]%string) /\
  exists gl, glob_parse demo3 = Ok gl /\ glob_match gl (B "ac.dy") = Ok true /\ glob_match gl (B "ac.dq") = Ok false.
Proof.
  split; [exact demo3_enumerable|]. split; [vm_compute; reflexivity|]. eexists. split; [vm_compute; reflexivity|]. split; vm_compute; reflexivity.
Qed.

(** C87: a dotted glob matches a list of parts (without a length) exactly when Expand lists their path. *)
Theorem c87_parts : forall (text : str) (fs : list fac) (gs : list str) (g : gglob) (xs : list str) (ps : list str), text <> [] -> enumerable text fs ->
  accepted_parts text gs -> Forall good_glob gs -> dotless_classes text -> no_final_dot text -> gg_parse text = Ok g -> expand text (-1) 0 = Ok xs ->
  ps <> [] -> dotless ps -> Forall clean ps -> (gg_match_by_parts g ps 0 = Ok true <-> In (dotted ps) xs).
Proof. exact c87_parts_l. Qed.
Print Assumptions c87_parts.

(** C87: of an accepted dotted glob, a tree of dotted globs reports exactly the paths Expand lists (paths without empty parts and without a
    trailing dot). *)
Theorem c87_gtree : forall (calls : list (str * Z)) (gt : gglob_tree) rs (E : list entry) (path : str) (ps : list str) (e : entry) (fs : list fac) (xs : list str),
  run_adds ggt_add ggt_new calls = Ok (gt, rs) -> history gg_canon calls rs E ->
  (forall e, In e E -> exists gs, accepted_parts (e_text e) gs /\ Forall good_glob gs) -> clean path \/ (forall e, In e E -> lone_parts (e_text e)) ->
  parts_of path ps -> ~ In [] ps -> no_final_dot path ->
  In e E -> enumerable (e_text e) fs -> dotless_classes (e_text e) -> no_final_dot (e_text e) -> expand (e_text e) (-1) 0 = Ok xs ->
  exists l, ggt_match gt path = Ok (l, length l) /\ (In (e_node e, e_index e) l <-> In path xs).
Proof. exact c87_gtree_l. Qed.
Print Assumptions c87_gtree.

Lemma demo3_dotless : dotless_classes demo3.
Proof.
  intros a body b E N I. rewrite bracketed_app in E. change demo3 with (B "a{b,c}.d" ++ B "[x-z]") in E. apply past in E as (a' & -> & E); [|vm_compute; intuition discriminate].
  change (B "[x-z]") with ("["%char :: B "x-z" ++ "]"%char :: []) in E. destruct a' as [|c a'].
  - injection E as E. apply (cut_unique "]" (B "x-z") body [] b) in E as [<- _]; auto; [|vm_compute; intuition discriminate]. destruct class_xz as (rs & _ & M & V). apply M in I. apply (List.in_map encode_rune) in I. rewrite <- V in I. vm_compute in I. intuition discriminate.
  - injection E as _ E. assert (X := in_or_app a' ("["%char :: body ++ "]"%char :: b) "["%char (or_intror (or_introl eq_refl))). rewrite <- E in X. vm_compute in X. intuition discriminate.
Qed.
Example c87_gtree_example : exists gs, accepted_parts demo3 gs /\ Forall good_glob gs /\ dotless_classes demo3 /\ no_final_dot demo3 /\
  exists gt rs, run_adds ggt_add ggt_new [(B "a*.?[y-z]", 7%Z); (demo3, 4%Z)] = Ok (gt, rs) /\ ggt_match gt (B "ac.dy") = Ok ([(B "a*.?[y-z]", 7%Z); (demo3, 4%Z)], 2) /\ ggt_match gt (B "ac.dq") = Ok ([], 0).
Proof.
  exists [B "a{b,c}"; B "d[x-z]"]. split; [|split; [|split; [exact demo3_dotless|split]]].
  - right. split; [intros [X|[X|[]]]; discriminate|]. left. split; [discriminate|]. split; [discriminate|]. split; [intros x [<-|[<-|[]]]; vm_compute; intuition discriminate|]. right. split; [reflexivity|].
    intros q E. apply (f_equal (fun l => last l "a"%char)) in E. rewrite last_last in E. discriminate.
  - repeat (constructor; [apply good_glob_ok; vm_compute; reflexivity|]); constructor.
  - intros q E. apply (f_equal (fun l => last l "a"%char)) in E. unfold B in E at 1. cbn in E. rewrite last_last in E. discriminate.
  - do 2 eexists. split; [vm_compute; reflexivity|]. split; vm_compute; reflexivity.
Qed.

(** C87 fails for Match of a dotted glob: its greatest length does not count the dots (C38). *)
Theorem c87_match_refuted : exists g, gg_parse (B "a{b,c}.d") = Ok g /\ expand (B "a{b,c}.d") (-1) 0 = Ok [B "ab.d"; B "ac.d"] /\ gg_match g (B "ab.d") = Ok false.
Proof. exact c87_match_refuted_l. Qed.
Print Assumptions c87_match_refuted.
