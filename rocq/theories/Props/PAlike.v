(** C77: the order of registration, for all globs and queries. *)
From Verif Require Import Model.GGlob Model.GTags Spec.PathSpec Spec.RegistrySpec Spec.GGlobSpec Spec.FirstSpec Spec.TagSpec Spec.TagTreeSpec.
From Verif Require Import Proof.SortP Proof.PathP Proof.GGlobP Proof.RegistryP Proof.FirstP Proof.FirstTop Proof.UseTop.
From Verif Require Import Proof.AlikeTop.


(** C77: for a GGlobTree this holds of all globs and all paths, if parts that are normalised alike match alike: whenever
    Match (MatchByParts) returns on one of the trees it returns on the other, with the same count and the same reports
    in some order. *)
Theorem c77_gglob_alike : forall (calls calls' : list (str * Z)) (gt : gglob_tree) rs (E : list entry),
  run_adds ggt_add ggt_new calls = Ok (gt, rs) -> history gg_canon calls rs E -> length E = length calls -> Permutation calls calls' -> parts_agree E ->
  exists gt' rs' E', run_adds ggt_add ggt_new calls' = Ok (gt', rs') /\ history gg_canon calls' rs' E' /\ Permutation E E' /\
    forall path ps l n, (ggt_match gt path = Ok (l, n) -> exists l', ggt_match gt' path = Ok (l', n) /\ Permutation l l') /\
                        (ggt_match gt' path = Ok (l, n) -> exists l', ggt_match gt path = Ok (l', n) /\ Permutation l l') /\
                        (ggt_match_by_parts gt ps = Ok (l, n) -> exists l', ggt_match_by_parts gt' ps = Ok (l', n) /\ Permutation l l') /\
                        (ggt_match_by_parts gt' ps = Ok (l, n) -> exists l', ggt_match_by_parts gt ps = Ok (l', n) /\ Permutation l l').
Proof. exact c77_gglob_alike_l. Qed.
Print Assumptions c77_gglob_alike.

Example c77_gglob_alike_example : let calls := [(B "{*a,b?}c.x", 1%Z); (B "{*a,b?}c.*", 2%Z); (B "*a*.?", 3%Z)] in let calls' := [(B "*a*.?", 3%Z); (B "{*a,b?}c.*", 2%Z); (B "{*a,b?}c.x", 1%Z)] in
  exists gt rs E gt' rs', run_adds ggt_add ggt_new calls = Ok (gt, rs) /\ history gg_canon calls rs E /\ length E = length calls /\ Permutation calls calls' /\ parts_agree E /\ run_adds ggt_add ggt_new calls' = Ok (gt', rs') /\
  ggt_match gt (B "bac.x") = Ok ([(B "{*a,b?}c.x", 1%Z); (B "{*a,b?}c.*", 2%Z); (B "*a*.?", 3%Z)], 3) /\ ggt_match gt' (B "bac.x") = Ok ([(B "*a*.?", 3%Z); (B "{*a,b?}c.x", 1%Z); (B "{*a,b?}c.*", 2%Z)], 3).
Proof.
  intros calls calls'. destruct (GTreeP.ggt_history calls) as (gt & rs & E & R & H & _). destruct (GTreeP.ggt_history calls') as (gt' & rs' & E' & R' & H' & _).
  exists gt, rs, E, gt', rs'. split; [exact R|]. split; [exact H|]. split; [vm_compute in R; injection R as <- <-; exact (history_ok_len _ _ _ _ H eq_refl)|]. split; [exact (Permutation_rev calls)|]. split.
  - assert (T := GlobTreeTop.history_texts _ _ _ _ H). intros e e' g g' p p' I I' P P' J J' [S _] s. apply T in I. apply T in I'. unfold calls in I, I'. cbn [In] in I, I'.
    assert (C : forall e g p, In (e_text e, e_index e) calls -> gg_parse (e_text e) = Ok g -> In p (gg_parts g) -> In p (flat_map (fun c => match gg_parse (fst c) with Ok g => gg_parts g | _ => [] end) calls)).
    { intros d gd pd Id Pd Jd. apply in_flat_map. exists (e_text d, e_index d). split; [exact Id|]. cbn [fst]. now rewrite Pd. }
    specialize (C _ _ _ I P J) as K. specialize (C _ _ _ I' P' J') as K'. clear - S K K'. vm_compute in K, K'. 
    repeat (destruct K as [<-|K]; [repeat (destruct K' as [<-|K']; [first [reflexivity|discriminate S]|]); destruct K'|]). destruct K.
  - split; [exact R'|]. vm_compute in R, R'. injection R as <- <-. injection R' as <- <-. split; vm_compute; reflexivity.
Qed.

(** C77: for a GTagsTree this holds of all queries without blank keys, if conditions that are written alike hold of the
    tags alike: whenever MatchByTagsMap returns for both trees, it has stored the same queries in some order. *)
Theorem c77_tags_alike : forall (rx : regexps) (calls calls' : list (str * Z)) (gt : gtags_tree) rs (E : list entry) (tags : list tag),
  (forall c, In c calls -> named_keys rx (fst c)) -> run_adds (tg_add rx) tg_new calls = Ok (gt, rs) -> history (tg_canon rx) calls rs E -> length E = length calls -> Permutation calls calls' ->
  (forall t u, accepted_term rx E t -> accepted_term rx E u -> condition t = condition u -> holds rx t tags -> holds rx u tags) ->
  exists gt' rs' E', run_adds (tg_add rx) tg_new calls' = Ok (gt', rs') /\ history (tg_canon rx) calls' rs' E' /\ Permutation E E' /\
    forall l n l' n', tg_match_map rx gt tags = Ok (l, n) -> tg_match_map rx gt' tags = Ok (l', n') -> n = n' /\ Permutation l l'.
Proof. exact c77_tags_alike_l. Qed.
Print Assumptions c77_tags_alike.

(** A regexp engine for the example: every text compiles and matches itself. *)
Definition rx_self : regexps := mkRx (fun _ => true) (fun re v => str_eqb re v).
Example c77_tags_alike_example : let calls := [(B "seriesByTag('name=x*')", 1%Z); (B "seriesByTag('a=1','b!=2')", 2%Z); (B "seriesByTag('name=x')", 3%Z); (B "seriesByTag('name=x*','a=1')", 4%Z)] in
  let tags := [(B "__name__", B "x"); (B "a", B "1")] in
  exists gt rs E gt' rs', (forall c, In c calls -> named_keys rx_self (fst c)) /\ run_adds (tg_add rx_self) tg_new calls = Ok (gt, rs) /\ history (tg_canon rx_self) calls rs E /\ length E = length calls /\
  (forall t u, accepted_term rx_self E t -> accepted_term rx_self E u -> condition t = condition u -> holds rx_self t tags -> holds rx_self u tags) /\ run_adds (tg_add rx_self) tg_new (rev calls) = Ok (gt', rs') /\
  (exists l, tg_match_map rx_self gt tags = Ok (l, 4) /\ map snd l = [3%Z; 4%Z; 2%Z; 1%Z]) /\ (exists l, tg_match_map rx_self gt' tags = Ok (l, 4) /\ map snd l = [1%Z; 2%Z; 4%Z; 3%Z]).
Proof.
  intros calls tags. assert (K : forall c, In c calls -> named_keys rx_self (fst c)).
  { intros c I. repeat (destruct I as [<-|I]; [intros ts t P J; vm_compute in P; injection P as <-; repeat (destruct J as [<-|J]; [discriminate|]); destruct J|]). destruct I. }
  destruct (TagTreeP.tg_history rx_self calls K) as (gt & rs & E & R & H & _). destruct (TagTreeP.tg_history rx_self (rev calls)) as (gt' & rs' & E' & R' & H' & _); [intros c I; apply K, in_rev; exact I|].
  exists gt, rs, E, gt', rs'. split; [exact K|]. split; [exact R|]. split; [exact H|]. split; [vm_compute in R; injection R as <- <-; exact (history_ok_len _ _ _ _ H eq_refl)|]. split.
  - assert (T := GlobTreeTop.history_texts _ _ _ _ H).
    assert (C : forall t, accepted_term rx_self E t -> In t (flat_map (fun c => match parse_series rx_self (fst c) with Ok ts => ts | _ => [] end) calls)).
    { intros t (e & ts & Ie & Pe & It). apply in_flat_map. exists (e_text e, e_index e). split; [exact (T e Ie)|]. cbn [fst]. now rewrite Pe. }
    intros t u At Au S. apply C in At. apply C in Au. clear - S At Au. vm_compute in At, Au.
    repeat (destruct At as [<-|At]; [repeat (destruct Au as [<-|Au]; [first [exact (fun h => h)|discriminate S]|]); destruct Au|]). destruct At.
  - split; [exact R'|]. vm_compute in R, R'. injection R as <- <-. injection R' as <- <-. split; eexists; split; vm_compute; reflexivity.
Qed.

(** C77: if conditions that are written alike give the same answer on the value of their tag, then MatchByTagsMap also
    returns for one of the trees exactly if it returns for the other, and so does MatchByTags on sorted tags; the reports
    are the same in some order. *)
Theorem c77_tags_returns : forall (rx : regexps) (calls calls' : list (str * Z)) (gt : gtags_tree) rs (E : list entry) (tags : list tag),
  (forall c, In c calls -> named_keys rx (fst c)) -> run_adds (tg_add rx) tg_new calls = Ok (gt, rs) -> history (tg_canon rx) calls rs E -> length E = length calls -> Permutation calls calls' ->
  (forall t u v, accepted_term rx E t -> accepted_term rx E u -> condition t = condition u -> value_of tags (tt_key t) = Some v -> tt_match rx t v = tt_match rx u v) ->
  exists gt' rs' E', run_adds (tg_add rx) tg_new calls' = Ok (gt', rs') /\ history (tg_canon rx) calls' rs' E' /\ Permutation E E' /\
    forall l n, (tg_match_map rx gt tags = Ok (l, n) -> exists l', tg_match_map rx gt' tags = Ok (l', n) /\ Permutation l l') /\
                (tg_match_map rx gt' tags = Ok (l, n) -> exists l', tg_match_map rx gt tags = Ok (l', n) /\ Permutation l l') /\
                (keys_sorted (map fst tags) -> (tg_match_tags rx gt tags = Ok (l, n) -> exists l', tg_match_tags rx gt' tags = Ok (l', n) /\ Permutation l l') /\
                                               (tg_match_tags rx gt' tags = Ok (l, n) -> exists l', tg_match_tags rx gt tags = Ok (l', n) /\ Permutation l l')).
Proof. exact c77_tags_returns_l. Qed.
Print Assumptions c77_tags_returns.

Example c77_tags_returns_example : let calls := [(B "seriesByTag('name=x*')", 1%Z); (B "seriesByTag('a=1','b!=2')", 2%Z); (B "seriesByTag('name=x*','a=1')", 4%Z)] in
  let tags := [(B "__name__", B "x"); (B "a", B "1")] in
  exists gt rs E gt' rs', (forall c, In c calls -> named_keys rx_self (fst c)) /\ run_adds (tg_add rx_self) tg_new calls = Ok (gt, rs) /\ history (tg_canon rx_self) calls rs E /\ length E = length calls /\
  (forall t u v, accepted_term rx_self E t -> accepted_term rx_self E u -> condition t = condition u -> value_of tags (tt_key t) = Some v -> tt_match rx_self t v = tt_match rx_self u v) /\ run_adds (tg_add rx_self) tg_new (rev calls) = Ok (gt', rs') /\
  (exists l, tg_match_map rx_self gt tags = Ok (l, 3) /\ map snd l = [4%Z; 2%Z; 1%Z]) /\ (exists l, tg_match_map rx_self gt' tags = Ok (l, 3) /\ map snd l = [1%Z; 2%Z; 4%Z]) /\ keys_sorted (map fst tags).
Proof.
  intros calls tags. assert (K : forall c, In c calls -> named_keys rx_self (fst c)).
  { intros c I. repeat (destruct I as [<-|I]; [intros ts t P J; vm_compute in P; injection P as <-; repeat (destruct J as [<-|J]; [discriminate|]); destruct J|]). destruct I. }
  destruct (TagTreeP.tg_history rx_self calls K) as (gt & rs & E & R & H & _). destruct (TagTreeP.tg_history rx_self (rev calls)) as (gt' & rs' & E' & R' & H' & _); [intros c I; apply K, in_rev; exact I|].
  exists gt, rs, E, gt', rs'. split; [exact K|]. split; [exact R|]. split; [exact H|]. split; [vm_compute in R; injection R as <- <-; exact (history_ok_len _ _ _ _ H eq_refl)|]. split.
  - assert (T := GlobTreeTop.history_texts _ _ _ _ H).
    assert (C : forall t, accepted_term rx_self E t -> In t (flat_map (fun c => match parse_series rx_self (fst c) with Ok ts => ts | _ => [] end) calls)).
    { intros t (e & ts & Ie & Pe & It). apply in_flat_map. exists (e_text e, e_index e). split; [exact (T e Ie)|]. cbn [fst]. now rewrite Pe. }
    intros t u v At Au S _. apply C in At. apply C in Au. clear - S At Au. vm_compute in At, Au.
    repeat (destruct At as [<-|At]; [repeat (destruct Au as [<-|Au]; [first [reflexivity|discriminate S]|]); destruct Au|]). destruct At.
  - split; [exact R'|]. vm_compute in R, R'. injection R as <- <-. injection R' as <- <-. split; [eexists; split; vm_compute; reflexivity|]. split; [eexists; split; vm_compute; reflexivity|]. cbn. unfold key_lt. repeat split; auto; intros k I; (repeat destruct I as [<-|I]); try easy; left; split; [reflexivity|discriminate].
Qed.
