(** C82: queries with stars inside list values. *)
From Verif Require Import Model.GTags Spec.Symbols Spec.Class Spec.GlobSpec Spec.StarSpec Spec.ApartSpec Spec.Neat Spec.GGlobSpec Spec.TagSpec Spec.QuerySpec Spec.SelectSpec Spec.RegistrySpec Spec.TagTreeSpec Spec.SteadySpec Spec.FitSpec Spec.FitTagSpec.
From Verif Require Import Proof.SortP Proof.SafeP Proof.KeyP Proof.TermsP Proof.SeriesP Proof.RegistryP Proof.TagTreeP Proof.SelectP Proof.CheckP Proof.CheckNeatP Proof.GlobTop Proof.GGlobTop Proof.TagTop Proof.SelectTop Proof.SteadyTop Proof.FitTop.
From Verif Require Import Proof.FitTagTop.


(** C82: a query whose globs may have stars anywhere in list values accepts a map of tags exactly when its text selects the tags, no value being
    longer than the MaxLen of the glob it is compared with (by '!=' such a value is accepted). *)
Theorem c82_stars : forall (rx : regexps) (q : str) (ts : list tterm) (tags : list tag), parse_series rx q = Ok ts -> star_query q -> clean_tags tags \/ lone_query q ->
  exists b, terms_match_map rx ts tags = Ok b /\ (b = true <-> selects_within rx q tags).
Proof. exact c82_stars_l. Qed.
Print Assumptions c82_stars.

(** C82: a tree of such queries reports, on a non-empty map of tags, exactly the accepted queries with conditions whose text selects the tags
    in this sense. *)
Theorem c82_stars_tree : forall (rx : regexps) (calls : list (str * Z)) (gt : gtags_tree) (rs : list add_res) (E : list entry) (tags : list tag),
  (forall c, In c calls -> named_query (fst c)) -> run_adds (tg_add rx) tg_new calls = Ok (gt, rs) -> history (tg_canon rx) calls rs E ->
  (forall e, In e E -> star_query (e_text e)) -> clean_tags tags \/ (forall e, In e E -> lone_query (e_text e)) -> tags <> [] ->
  exists l, tg_match_map rx gt tags = Ok (l, length l) /\ NoDup (map snd l) /\
    forall q i, In (q, i) l <-> exists e, In e E /\ e_node e = q /\ e_index e = i /\ ~ query_text (e_text e) [] /\ selects_within rx (e_text e) tags.
Proof. exact c82_stars_tree_l. Qed.
Print Assumptions c82_stars_tree.

(** An engine that takes an expression as the text it matches. *)
Definition rx_self : regexps := mkRx (fun _ => true) (fun re v => str_eqb re v).
Ltac letters := let c := fresh in let I := fresh in intros c I; vm_compute in I; (repeat destruct I as [<-|I]); try easy; vm_compute; reflexivity.
Ltac others := let c := fresh in let I := fresh in let J := fresh in intros c I J; vm_compute in I, J; (repeat destruct I as [<-|I]); try easy; intuition discriminate.
Lemma ft_part g : node_glob_b g && regular_stars_b g = true -> part_glob g.
Proof.
  intro H. apply andb_prop in H as [N R]. destruct (node_glob_ok g N) as (C & Z & _ & P & Q). split; [exact C|]. split; [exact Z|]. split; [exact P|]. split; [now apply plain_not_star|now apply regular_stars_ok].
Qed.
Definition fq : str := B "seriesByTag('name={a*b,cdef}[0-9]', 'a!=x*')".
Lemma fq_texts : forall l s k op v, query_text fq l -> In s l -> condition_text s k op v -> k <> [] /\ part_glob v /\ neat v.
Proof.
  apply (query_cases (fun k op v => k <> [] /\ part_glob v /\ neat v)) with (n := 128) (l := [B "name={a*b,cdef}[0-9]"; B "a!=x*"]); [vm_compute; reflexivity|].
  constructor; [|constructor; [|constructor]].
  - exists (B "__name__"), OpEq, (B "{a*b,cdef}[0-9]"). split; [apply (text_intro (B "name") OpEq (B "{a*b,cdef}[0-9]")); [discriminate|others|intros _ w; discriminate]|].
    split; [discriminate|]. split; [now apply ft_part|now apply steady_ok].
  - exists (B "a"), OpNe, (B "x*"). split; [apply (text_intro (B "a") OpNe (B "x*")); [discriminate|others|intros _ w; discriminate]|].
    split; [discriminate|]. split; [now apply ft_part|now apply steady_ok].
Qed.
(** 'azzzb7' is denoted by the glob but longer than its MaxLen, which is 5. *)
Example c82_stars_example : named_query fq /\ star_query fq /\ (forall s, In s [B "ab7"; B "azb7"; B "azzzb7"] -> clean_tags [(B "__name__", s)]) /\
  exists ts gt rs, parse_series rx_self fq = Ok ts /\ run_adds (tg_add rx_self) tg_new [(fq, 5%Z)] = Ok (gt, rs) /\
  terms_match_map rx_self ts [(B "__name__", B "azb7")] = Ok true /\ terms_match_map rx_self ts [(B "__name__", B "azzzb7")] = Ok false /\
  tg_match_map rx_self gt [(B "__name__", B "azb7")] = Ok ([(B "seriesByTag('__name__={a*b,cdef}[0-9]','a!=x*')", 5%Z)], 1) /\
  tg_match_map rx_self gt [(B "__name__", B "azzzb7")] = Ok ([], 0).
Proof.
  split; [intros l s k op v Q I T; exact (proj1 (fq_texts _ _ _ _ _ Q I T))|]. split; [intros l s k op v Q I T _ _; exact (proj2 (fq_texts _ _ _ _ _ Q I T))|].
  split; [intros s I k x [Ix|[]]; injection Ix as _ <-; repeat (destruct I as [<-|I]; [apply clean_ascii; letters|]); easy|].
  do 3 eexists. split; [vm_compute; reflexivity|]. split; [vm_compute; reflexivity|]. repeat (split; [vm_compute; reflexivity|]). vm_compute; reflexivity.
Qed.
