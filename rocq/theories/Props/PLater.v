(** C36, C77: what trees store before and after more is added. *)
From Verif Require Import Model.Tree Model.GGlob Model.GTags Spec.Symbols Spec.GlobSpec Spec.RegistrySpec Spec.GlobTreeSpec Spec.GGlobSpec Spec.TagSpec Spec.TagTreeSpec Spec.LaterSpec.
From Verif Require Import Proof.SortP Proof.RegistryP Proof.GlobTreeP Proof.GlobTreeTop Proof.TreeMonoP Proof.CheckP Proof.UseTop Proof.LaterP Proof.LaterReturnP.
From Verif Require Import Proof.LaterTop.


(** C36: if a star is only ever followed by stars and question marks, Match of a GlobTree returns for every
    string, of any bytes. *)
Theorem c36_answers : forall (calls : list (str * Z)) (gt : glob_tree) rs (E : list entry) (s : str),
  run_adds gt_add gt_new calls = Ok (gt, rs) -> history gl_canon calls rs E -> (forall e, In e E -> stars_at_end (e_text e)) ->
  exists f0 l, forall f, f0 <= f -> gt_match f gt s = Ok (l, length l).
Proof. exact c36_answers_l. Qed.
Print Assumptions c36_answers.

From Verif Require Proof.TreeEnd2P.
Example c36_answers_example : let calls := [(B "a{b,?}*", 1%Z); (B "[a-c]{,ж?}??", 2%Z)] in exists gt rs E, run_adds gt_add gt_new calls = Ok (gt, rs) /\ history gl_canon calls rs E /\
  (forall e, In e E -> stars_at_end (e_text e)) /\
  gt_match 40 gt [byte_of 97; byte_of 208; byte_of 255] = Ok ([(B "a{?,b}*", 1%Z); (B "[a-c]{,ж?}??", 2%Z); (B "[a-c]{,ж?}??", 2%Z)], 3).
Proof.
  intro calls. destruct (gt_history calls) as (gt & rs & E & R & H & _). exists gt, rs, E. split; [exact R|]. split; [exact H|]. split.
  - intros e I. apply (history_texts _ _ _ _ H) in I. apply TreeEnd2P.tail_check_ok. repeat (destruct I as [I|I]; [injection I as <- _; vm_compute; reflexivity|]). destruct I.
  - vm_compute in R. injection R as <- <-. vm_compute. reflexivity.
Qed.

(** C77: if a star is only ever followed by stars and question marks, a GlobTree goes on reporting what it
    reported: what Match stores after further calls of Add, without the globs they added, is what it stored
    before, in the same order and equally often.  Any string, any such globs. *)
Theorem c77_glob_more : forall (calls more : list (str * Z)) (gt gt' : glob_tree) rs rs' (E E' : list entry) (s : str),
  run_adds gt_add gt_new calls = Ok (gt, rs) -> history gl_canon calls rs E ->
  run_adds gt_add gt_new (calls ++ more) = Ok (gt', rs') -> history gl_canon (calls ++ more) rs' E' ->
  (forall e, In e E' -> stars_at_end (e_text e)) ->
  exists f0 l, forall f, f0 <= f -> gt_match f gt' s = Ok (l, length l) /\ gt_match f gt s = Ok (stored_for E l, length (stored_for E l)).
Proof. exact c77_glob_more_l. Qed.
Print Assumptions c77_glob_more.

Example c77_glob_more_example : let calls := [(B "a{b,?}*", 1%Z); (B "[a-c]b*", 2%Z)] in let more := [(B "a{b,?}?", 3%Z); (B "[a-c]b{c,?}*", 4%Z); (B "a{b,?}c?", 5%Z)] in
  exists gt rs gt' rs' E E', run_adds gt_add gt_new calls = Ok (gt, rs) /\ history gl_canon calls rs E /\
    run_adds gt_add gt_new (calls ++ more) = Ok (gt', rs') /\ history gl_canon (calls ++ more) rs' E' /\
    (forall e, In e E' -> stars_at_end (e_text e)) /\
    gt_match 40 gt' (B "abc") = Ok ([(B "a{?,b}*", 1%Z); (B "a{?,b}?", 3%Z); (B "a{?,b}*", 1%Z); (B "a{?,b}?", 3%Z); (B "[a-c]b*", 2%Z); (B "[a-c]b{?,c}*", 4%Z); (B "[a-c]b{?,c}*", 4%Z)], 7) /\
    gt_match 40 gt (B "abc") = Ok ([(B "a{?,b}*", 1%Z); (B "a{?,b}*", 1%Z); (B "[a-c]b*", 2%Z)], 3).
Proof.
  intros calls more. destruct (gt_history calls) as (gt & rs & E & R & H & _). destruct (gt_history (calls ++ more)) as (gt' & rs' & E' & R' & H' & _).
  exists gt, rs, gt', rs', E, E'. split; [exact R|]. split; [exact H|]. split; [exact R'|]. split; [exact H'|]. split.
  - intros e I. apply (history_texts _ _ _ _ H') in I. apply TreeEnd2P.tail_check_ok. repeat (destruct I as [I|I]; [injection I as <- _; vm_compute; reflexivity|]). destruct I.
  - vm_compute in R, R'. injection R as <- <-. injection R' as <- <-. split; vm_compute; reflexivity.
Qed.

(** C77: a GGlobTree goes on reporting what it reported, whatever is added: whenever Match (MatchByParts) of the
    larger tree returns, it stored, besides the added globs, what that of the smaller tree stores, in the same order.
    Any globs, any path. *)
Theorem c77_gglob_more : forall (calls more : list (str * Z)) (gt gt' : gglob_tree) rs rs' (E E' : list entry) (l : list term) (n : nat),
  run_adds ggt_add ggt_new calls = Ok (gt, rs) -> history gg_canon calls rs E ->
  run_adds ggt_add ggt_new (calls ++ more) = Ok (gt', rs') -> history gg_canon (calls ++ more) rs' E' ->
  (forall path, ggt_match gt' path = Ok (l, n) -> ggt_match gt path = Ok (stored_for E l, length (stored_for E l))) /\
  (forall ps, ggt_match_by_parts gt' ps = Ok (l, n) -> ggt_match_by_parts gt ps = Ok (stored_for E l, length (stored_for E l))).
Proof. exact c77_gglob_more_l. Qed.
Print Assumptions c77_gglob_more.

Example c77_gglob_more_example : let calls := [(B "a.{b*,x}c", 1%Z); (B "a.b", 2%Z)] in let more := [(B "?.b*c", 3%Z); (B "a.{b*,x}c.d", 4%Z); (B "a.{,b}c", 5%Z); (B "a.{x,b*}c", 6%Z)] in
  exists gt rs gt' rs' E E', run_adds ggt_add ggt_new calls = Ok (gt, rs) /\ history gg_canon calls rs E /\
    run_adds ggt_add ggt_new (calls ++ more) = Ok (gt', rs') /\ history gg_canon (calls ++ more) rs' E' /\
    ggt_match gt' (B "a.bbc") = Ok ([(B "a.{b*,x}c", 1%Z); (B "?.b*c", 3%Z)], 2) /\ ggt_match gt (B "a.bbc") = Ok ([(B "a.{b*,x}c", 1%Z)], 1).
Proof.
  intros calls more. destruct (GTreeP.ggt_history calls) as (gt & rs & E & R & H & _). destruct (GTreeP.ggt_history (calls ++ more)) as (gt' & rs' & E' & R' & H' & _).
  exists gt, rs, gt', rs', E, E'. split; [exact R|]. split; [exact H|]. split; [exact R'|]. split; [exact H'|]. vm_compute in R, R'. injection R as <- <-. injection R' as <- <-. split; vm_compute; reflexivity.
Qed.

(** C77: so does a GTagsTree, for queries without blank keys: whenever MatchByTagsMap (for sorted tags: MatchByTags)
    of the larger tree returns, it stored, besides the added queries, what that of the smaller tree stores, in the
    same order. *)
Theorem c77_tags_more : forall (rx : regexps) (calls more : list (str * Z)) (gt gt' : gtags_tree) rs rs' (E E' : list entry) (tags : list tag) (l : list term) (n : nat),
  (forall c, In c (calls ++ more) -> named_keys rx (fst c)) ->
  run_adds (tg_add rx) tg_new calls = Ok (gt, rs) -> history (tg_canon rx) calls rs E ->
  run_adds (tg_add rx) tg_new (calls ++ more) = Ok (gt', rs') -> history (tg_canon rx) (calls ++ more) rs' E' ->
  (tg_match_map rx gt' tags = Ok (l, n) -> tg_match_map rx gt tags = Ok (stored_for E l, length (stored_for E l))) /\
  (keys_sorted (map fst tags) -> tg_match_tags rx gt' tags = Ok (l, n) -> exists n', tg_match_tags rx gt tags = Ok (stored_for E l, n')).
Proof. exact c77_tags_more_l. Qed.
Print Assumptions c77_tags_more.

(** A regexp engine for the example: every text compiles and matches itself. *)
Definition rx_self : regexps := mkRx (fun _ => true) (fun re v => str_eqb re v).
Example c77_tags_more_example : let calls := [(B "seriesByTag('name=x*')", 1%Z); (B "seriesByTag('a=1','b!=2')", 2%Z); (B "seriesByTag()", 7%Z)] in
  let more := [(B "seriesByTag('name=x')", 3%Z); (B "seriesByTag('a=1')", 4%Z); (B "seriesByTag('a=1','b!=3')", 5%Z); (B "seriesByTag('b!=2')", 6%Z)] in
  exists gt rs gt' rs' E E', run_adds (tg_add rx_self) tg_new calls = Ok (gt, rs) /\ history (tg_canon rx_self) calls rs E /\
    run_adds (tg_add rx_self) tg_new (calls ++ more) = Ok (gt', rs') /\ history (tg_canon rx_self) (calls ++ more) rs' E' /\
    (forall c, In c (calls ++ more) -> named_keys rx_self (fst c)) /\
    (exists l, tg_match_map rx_self gt' [(B "__name__", B "x"); (B "a", B "1")] = Ok (l, 6) /\ map snd l = [3%Z; 4%Z; 2%Z; 5%Z; 1%Z; 6%Z]) /\
    tg_match_map rx_self gt [(B "__name__", B "x"); (B "a", B "1")] = Ok ([(B "seriesByTag('a=1','b!=2')", 2%Z); (B "seriesByTag('__name__=x*')", 1%Z)], 2) /\
    (exists l, tg_match_tags rx_self gt' [(B "__name__", B "x"); (B "a", B "1")] = Ok (l, 6) /\ map snd l = [7%Z; 3%Z; 4%Z; 2%Z; 5%Z; 1%Z; 6%Z]) /\
    tg_match_tags rx_self gt [(B "__name__", B "x"); (B "a", B "1")] = Ok ([(B "seriesByTag()", 7%Z); (B "seriesByTag('a=1','b!=2')", 2%Z); (B "seriesByTag('__name__=x*')", 1%Z)], 2).
Proof.
  intros calls more. assert (K : forall c, In c (calls ++ more) -> named_keys rx_self (fst c)).
  { intros c I. repeat (destruct I as [<-|I]; [intros ts t P J; vm_compute in P; injection P as <-; repeat (destruct J as [<-|J]; [discriminate|]); destruct J|]). destruct I. }
  destruct (TagTreeP.tg_history rx_self calls) as (gt & rs & E & R & H & _); [intros c I; apply K, in_or_app; now left|]. destruct (TagTreeP.tg_history rx_self (calls ++ more) K) as (gt' & rs' & E' & R' & H' & _).
  exists gt, rs, gt', rs', E, E'. split; [exact R|]. split; [exact H|]. split; [exact R'|]. split; [exact H'|]. split; [exact K|]. vm_compute in R, R'. injection R as <- <-. injection R' as <- <-.
  split; [eexists; split; vm_compute; reflexivity|]. split; [vm_compute; reflexivity|]. split; [eexists; split; vm_compute; reflexivity|]. vm_compute. reflexivity.
Qed.
