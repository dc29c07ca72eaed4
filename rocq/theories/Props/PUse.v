(** C75-C77: wildcard helpers, trees with stores, order of registration. *)
From Verif Require Import Model.Items Model.Tree Model.GGlob Model.GTags Model.Store Spec.Symbols Spec.Class Spec.GlobSpec Spec.PathSpec Spec.RegistrySpec Spec.GGlobSpec Spec.GlobTreeSpec Spec.TagSpec Spec.TagTreeSpec Spec.StoreSpec Spec.UseSpec.
From Verif Require Import Proof.Utf8P Proof.SymbolsP Proof.NextP Proof.DenotesP Proof.RegistryP Proof.StoreTop Proof.GGlobTop Proof.GlobTreeTop Proof.TagTreeP Proof.TagTop Proof.OrderP Proof.ExpandReadP.
From Verif Require Import Props.PGGlob Props.PTree Props.PTags.
From Verif Require Import Proof.UseTop.


(** C75: HasWildcard, IndexWildcard and IndexLastWildcard look for the characters [ ] { } * ? in any byte string: is there one, where
    is the first, where is the last. *)
Theorem c75_search : forall s : str,
  (has_wildcard s = true <-> exists c, In c s /\ In c special) /\
  (forall n, index_wildcard s = Some n <-> exists a c b, s = a ++ c :: b /\ length a = n /\ In c special /\ forall d, In d a -> ~ In d special) /\
  (forall n, index_last_wildcard s = Some n <-> exists a c b, s = a ++ c :: b /\ length a = n /\ In c special /\ forall d, In d b -> ~ In d special) /\
  (index_wildcard s = None <-> has_wildcard s = false) /\ (index_last_wildcard s = None <-> has_wildcard s = false).
Proof. exact c75_search_l. Qed.
Print Assumptions c75_search.

Example c75_search_example : has_wildcard (B "ab}c[d]e") = true /\ index_wildcard (B "ab}c[d]e") = Some 2 /\ index_last_wildcard (B "ab}c[d]e") = Some 6 /\ has_wildcard (B "abc") = false.
Proof. repeat split. Qed.

(** C75: WildcardCount is the number of bytes [ { * ? of any byte string. *)
Theorem c75_count : forall s : str, wildcard_count s = length (filter (fun c => existsb (Ascii.eqb c) opening) s).
Proof. exact c75_count_l. Qed.
Print Assumptions c75_count.

Example c75_count_example : wildcard_count (B "a*{b,c}?[d]" ++ [byte_of 255; byte_of 208; "*"%char]) = 5.
Proof. vm_compute. reflexivity. Qed.

(** C75: so a text without wildcards has none of them to count, but a text that has only closing brackets has wildcards and counts none. *)
Theorem c75_agree : (forall s : str, has_wildcard s = false -> wildcard_count s = 0) /\
  forall s : str, wildcard_count s = 0 -> (has_wildcard s = true <-> In "]"%char s \/ In "}"%char s).
Proof. exact c75_agree_l. Qed.
Print Assumptions c75_agree.

(** C76: a GGlobTree with a MinStore picks the matching glob with the least index, whatever the store held before. *)
Theorem c76_gglob : forall (calls : list (str * Z)) (gt : gglob_tree) rs (E : list entry) (path : str) (ps : list str) (m0 : min_store),
  run_adds ggt_add ggt_new calls = Ok (gt, rs) -> history gg_canon calls rs E ->
  (forall e, In e E -> exists gs, accepted_parts (e_text e) gs /\ Forall good_glob gs) -> clean path \/ (forall e, In e E -> lone_parts (e_text e)) -> parts_of path ps ->
  exists l n, ggt_match gt path = Ok (l, n) /\
    least_index E (fun e => ~ In [] ps /\ exists gs, accepted_parts (e_text e) gs /\ Forall2 part_denotes gs ps) (fold_left min_do (SInit :: reports l) m0).
Proof. exact c76_gglob_l. Qed.
Print Assumptions c76_gglob.

From Verif Require Import Props.PGGlob Props.PTree Props.PTags.
Definition use_calls := [(B "a*.{c,b}?", 5%Z); (B "?x.*[0-9ж]*", 2%Z)].
Definition use_entries := [mkEntry (B "a*.{c,b}?") (B "a*.{b,c}?") 5%Z; mkEntry (B "?x.*[0-9ж]*") (B "?x.*[0-9ж]*") 2%Z].
Lemma use_path : clean (B "ax.b7") /\ parts_of (B "ax.b7") [B "ax"; B "b7"].
Proof.
  split; [apply clean_ascii; intros c I; cbn in I; repeat (destruct I as [<-|I]; [reflexivity|]); destruct I|].
  split; [discriminate|]. split; [discriminate|]. split; [|right; split; [reflexivity|]; intros q H; change (B "ax.b7") with (B "ax." ++ B "b7") in H; change (B "b7") with (B "b" ++ B "7") in H; rewrite app_assoc in H; apply app_inj_tail in H as [_ H]; discriminate H].
  intros p I. cbn in I. repeat (destruct I as [<-|I]); try easy; intro H; cbn in H; repeat (destruct H as [H|H]; try discriminate H); easy.
Qed.
(** The hypotheses of C76 and C77 for a tree of dotted globs hold for these calls and this path. *)
Example use_gglob : exists gt rs, run_adds ggt_add ggt_new use_calls = Ok (gt, rs) /\ history gg_canon use_calls rs use_entries /\
  (forall e, In e use_entries -> exists gs, accepted_parts (e_text e) gs /\ Forall good_glob gs) /\ length use_entries = length use_calls.
Proof. destruct c42_denotes_example as (gt & rs & R & H & G & _). exists gt, rs. auto. Qed.
Example c76_gglob_example : exists gt rs l, run_adds ggt_add ggt_new use_calls = Ok (gt, rs) /\
  ggt_match gt (B "ax.b7") = Ok (l, 2) /\ fold_left min_do (SInit :: reports l) 77%Z = 2%Z /\ fold_left min_do (SInit :: reports []) 77%Z = (-1)%Z.
Proof. do 3 eexists. split; [vm_compute; reflexivity|]. split; [vm_compute; reflexivity|]. split; vm_compute; reflexivity. Qed.

(** C76: so does a GTagsTree on a map of tags, among the queries with conditions. *)
Theorem c76_tags : forall (rx : regexps) (calls : list (str * Z)) (tags : list tag) (m0 : min_store), tags <> [] ->
  (forall text i ts t, In (text, i) calls -> parse_series rx text = Ok ts -> In t ts -> plain_term t /\ evaluable rx [t] tags) ->
  exists gt rs E l n, run_adds (tg_add rx) tg_new calls = Ok (gt, rs) /\ history (tg_canon rx) calls rs E /\ tg_match_map rx gt tags = Ok (l, n) /\
    least_index E (fun e => exists ts, parse_series rx (e_text e) = Ok ts /\ ts <> [] /\ terms_match_map rx ts tags = Ok true) (fold_left min_do (SInit :: reports l) m0).
Proof. exact c76_tags_l. Qed.
Print Assumptions c76_tags.

Example c76_tags_example : let calls := [(B "seriesByTag('name=x*','a!=1')", 5%Z); (B "seriesByTag('name=y')", 6%Z); (B "seriesByTag('a!=1', 'name=x*')", 7%Z); (B "seriesByTag('a!=1')", 8%Z)] in
  let tags := [(B "__name__", B "xyz"); (B "b", B "2")] in
  (forall text i ts t, In (text, i) calls -> parse_series rx_self text = Ok ts -> In t ts -> plain_term t /\ evaluable rx_self [t] tags) /\
  exists gt rs l, run_adds (tg_add rx_self) tg_new calls = Ok (gt, rs) /\ tg_match_map rx_self gt tags = Ok (l, 2) /\ fold_left min_do (SInit :: reports l) 0%Z = 5%Z.
Proof.
  cbv zeta. split; [exact (proj1 c64_plain_example)|]. do 3 eexists. split; [vm_compute; reflexivity|]. split; vm_compute; reflexivity.
Qed.

(** C76: a GlobTree with a MinStore picks the least index among the matching globs that are neither plain text nor hidden. *)
Theorem c76_glob : forall (calls : list (str * Z)) (gt : glob_tree) rs (E : list entry) (s : str) (m0 : min_store),
  run_adds gt_add gt_new calls = Ok (gt, rs) -> history gl_canon calls rs E ->
  (forall e, In e E -> tree_glob (e_text e)) -> clean s \/ (forall e, In e E -> lone_classes (e_text e)) ->
  exists f0 l, (forall f, f0 <= f -> gt_match f gt s = Ok (l, length l)) /\
    least_index E (fun e => ~ plain_text (e_text e) /\ ~ hidden E e /\ denotes (e_text e) (symbols s)) (fold_left min_do (SInit :: reports l) m0).
Proof. exact c76_glob_l. Qed.
Print Assumptions c76_glob.

Example c76_glob_example : let calls := [(B "a*", 1%Z); (B "a*[bc]", 2%Z); (B "ab", 3%Z); (B "?b", 4%Z); (B "{b,c}?", 5%Z); (B "*{b?,[ac]x}c*d", 6%Z); (B "*{b?,[ac]x}[cж]", 7%Z)] in
  exists gt rs E l, run_adds gt_add gt_new calls = Ok (gt, rs) /\
  history gl_canon calls rs E /\ (forall e, In e E -> tree_glob (e_text e)) /\
  gt_match 30 gt (B "cb") = Ok (l, 2) /\ fold_left min_do (SInit :: reports l) 0%Z = 4%Z.
Proof.
  destruct c34_exact_example as (gt & rs & E & R & H & _ & _ & T & _ & M & _). cbv zeta. do 4 eexists. split; [exact R|]. split; [exact H|]. split; [exact T|]. split; [exact M|]. vm_compute. reflexivity.
Qed.

(** C77: globs that a GGlobTree accepts are accepted in any other order too, and every path is reported for the same ones. *)
Theorem c77_gglob : forall (calls calls' : list (str * Z)) (gt : gglob_tree) rs (E : list entry) (path : str) (ps : list str),
  run_adds ggt_add ggt_new calls = Ok (gt, rs) -> history gg_canon calls rs E -> length E = length calls -> Permutation calls calls' ->
  (forall e, In e E -> exists gs, accepted_parts (e_text e) gs /\ Forall good_glob gs) -> clean path \/ (forall e, In e E -> lone_parts (e_text e)) -> parts_of path ps ->
  exists gt' rs' E' l l', run_adds ggt_add ggt_new calls' = Ok (gt', rs') /\ history gg_canon calls' rs' E' /\ Permutation E E' /\
    ggt_match gt path = Ok (l, length l) /\ ggt_match gt' path = Ok (l', length l') /\ Permutation l l'.
Proof. exact c77_gglob_l. Qed.
Print Assumptions c77_gglob.

Example c77_gglob_example : exists gt rs gt' rs' l l', run_adds ggt_add ggt_new use_calls = Ok (gt, rs) /\ history gg_canon use_calls rs use_entries /\ run_adds ggt_add ggt_new (rev use_calls) = Ok (gt', rs') /\
  ggt_match gt (B "ax.b7") = Ok (l, 2) /\ ggt_match gt' (B "ax.b7") = Ok (l', 2) /\ l <> l' /\ Permutation l l'.
Proof.
  destruct use_gglob as (gt & rs & R & H & G & L). destruct use_path as [C PO].
  destruct (c77_gglob_l use_calls (rev use_calls) gt rs use_entries _ _ R H L (Permutation_rev _) G (or_introl C) PO) as (gt' & rs' & E' & l & l' & R' & _ & _ & M & M' & P).
  exists gt, rs, gt', rs', l, l'. vm_compute in R, R'. injection R as <- <-. injection R' as <- <-.
  vm_compute in M, M'. injection M as <-. injection M' as <-. split; [vm_compute; reflexivity|]. split; [exact H|]. split; [vm_compute; reflexivity|].
  split; [vm_compute; reflexivity|]. split; [vm_compute; reflexivity|]. split; [discriminate|exact P].
Qed.

(** C77: the same for a GTagsTree. *)
Theorem c77_tags : forall (rx : regexps) (calls calls' : list (str * Z)) (gt : gtags_tree) rs (E : list entry) (tags : list tag), tags <> [] ->
  (forall text i ts t, In (text, i) calls -> parse_series rx text = Ok ts -> In t ts -> plain_term t /\ evaluable rx [t] tags) ->
  run_adds (tg_add rx) tg_new calls = Ok (gt, rs) -> history (tg_canon rx) calls rs E -> length E = length calls -> Permutation calls calls' ->
  exists gt' rs' E' l l' n n', run_adds (tg_add rx) tg_new calls' = Ok (gt', rs') /\ history (tg_canon rx) calls' rs' E' /\ Permutation E E' /\
    tg_match_map rx gt tags = Ok (l, n) /\ tg_match_map rx gt' tags = Ok (l', n') /\ Permutation l l'.
Proof. exact c77_tags_l. Qed.
Print Assumptions c77_tags.

Example c77_tags_example : let calls := [(B "seriesByTag('name=x*','a!=1')", 5%Z); (B "seriesByTag('name=y')", 6%Z); (B "seriesByTag('a!=1')", 8%Z)] in
  let tags := [(B "__name__", B "xyz"); (B "b", B "2")] in
  (forall text i ts t, In (text, i) calls -> parse_series rx_self text = Ok ts -> In t ts -> plain_term t /\ evaluable rx_self [t] tags) /\
  exists gt rs E, run_adds (tg_add rx_self) tg_new calls = Ok (gt, rs) /\ history (tg_canon rx_self) calls rs E /\ length E = length calls.
Proof.
  cbv zeta. assert (Q := proj1 c64_plain_example). cbv zeta in Q. split.
  - intros text i ts t I. apply (Q text i). cbn [In] in *. tauto.
  - destruct (c68_add rx_self [(B "seriesByTag('name=x*','a!=1')", 5%Z); (B "seriesByTag('name=y')", 6%Z); (B "seriesByTag('a!=1')", 8%Z)]) as (gt & rs & E & R & H & _).
    { intros [text i] I ts t P It. eapply (Q text i); eauto. cbn [In] in *. tauto. }
    exists gt, rs, E. split; [exact R|]. split; [exact H|]. clear Q. vm_compute in R. injection R as <- <-. exact (history_ok_len _ _ _ _ H eq_refl).
Qed.

(** C77: and for a GlobTree (which may report a glob several times, so its reports agree as sets). *)
Theorem c77_glob : forall (calls calls' : list (str * Z)) (gt : glob_tree) rs (E : list entry) (s : str),
  run_adds gt_add gt_new calls = Ok (gt, rs) -> history gl_canon calls rs E -> length E = length calls -> Permutation calls calls' ->
  (forall e, In e E -> tree_glob (e_text e)) -> clean s \/ (forall e, In e E -> lone_classes (e_text e)) ->
  exists gt' rs' E' f0 l l', run_adds gt_add gt_new calls' = Ok (gt', rs') /\ history gl_canon calls' rs' E' /\ Permutation E E' /\
    (forall f, f0 <= f -> gt_match f gt s = Ok (l, length l) /\ gt_match f gt' s = Ok (l', length l')) /\ forall q i, In (q, i) l <-> In (q, i) l'.
Proof. exact c77_glob_l. Qed.
Print Assumptions c77_glob.

Example c77_glob_example : exists gt rs gt' rs' E, run_adds gt_add gt_new [(B "a*", 5%Z); (B "*c", 3%Z)] = Ok (gt, rs) /\ history gl_canon [(B "a*", 5%Z); (B "*c", 3%Z)] rs E /\
  length E = 2 /\ (forall e, In e E -> tree_glob (e_text e)) /\ run_adds gt_add gt_new [(B "*c", 3%Z); (B "a*", 5%Z)] = Ok (gt', rs') /\
  gt_match 50 gt (B "abc") = Ok ([(B "a*", 5%Z); (B "*c", 3%Z)], 2) /\ gt_match 50 gt' (B "abc") = Ok ([(B "*c", 3%Z); (B "a*", 5%Z)], 2).
Proof.
  destruct (c31_history [(B "a*", 5%Z); (B "*c", 3%Z)]) as (gt & rs & E & R & H & _).
  exists gt, rs. do 2 eexists. exists E. split; [exact R|]. split; [exact H|]. split; [vm_compute in R; injection R as <- <-; exact (history_ok_len _ _ _ _ H eq_refl)|].
  split; [|split; [vm_compute; reflexivity|vm_compute in R; injection R as <- <-; split; vm_compute; reflexivity]].
  intros e I. apply (history_texts _ _ _ _ H) in I. repeat (destruct I as [I|I]; [injection I as <- _; apply tree_glob_plain; reflexivity|]). destruct I.
Qed.

(** C76: with an AllStore a GGlobTree collects the canonical text and the index of every matching glob, each once, and the least index. *)
Theorem c76_all_gglob : forall (calls : list (str * Z)) (gt : gglob_tree) rs (E : list entry) (path : str) (ps : list str) (a0 : all_store),
  run_adds ggt_add ggt_new calls = Ok (gt, rs) -> history gg_canon calls rs E ->
  (forall e, In e E -> exists gs, accepted_parts (e_text e) gs /\ Forall good_glob gs) -> clean path \/ (forall e, In e E -> lone_parts (e_text e)) -> parts_of path ps ->
  exists l n, ggt_match gt path = Ok (l, n) /\ NoDup (as_idx (fold_left all_do (SInit :: reports l) a0)) /\
    collected E (fun e => ~ In [] ps /\ exists gs, accepted_parts (e_text e) gs /\ Forall2 part_denotes gs ps) (fold_left all_do (SInit :: reports l) a0).
Proof. exact c76_all_gglob_l. Qed.
Print Assumptions c76_all_gglob.

Example c76_all_gglob_example : exists gt rs l, run_adds ggt_add ggt_new use_calls = Ok (gt, rs) /\ history gg_canon use_calls rs use_entries /\
  (forall e, In e use_entries -> exists gs, accepted_parts (e_text e) gs /\ Forall good_glob gs) /\
  ggt_match gt (B "ax.b7") = Ok (l, 2) /\ fold_left all_do (SInit :: reports l) (mkAll 0%Z [9; 9]%Z [B "old"]) = mkAll 2%Z [5; 2]%Z [B "a*.{b,c}?"; B "?x.*[0-9ж]*"].
Proof.
  destruct use_gglob as (gt & rs & R & H & G & _). exists gt, rs. eexists. split; [exact R|]. split; [exact H|]. split; [exact G|].
  clear H G. vm_compute in R. injection R as <- <-. split; vm_compute; reflexivity.
Qed.

(** C76: so does a GTagsTree on a map of tags. *)
Theorem c76_all_tags : forall (rx : regexps) (calls : list (str * Z)) (tags : list tag) (a0 : all_store), tags <> [] ->
  (forall text i ts t, In (text, i) calls -> parse_series rx text = Ok ts -> In t ts -> plain_term t /\ evaluable rx [t] tags) ->
  exists gt rs E l n, run_adds (tg_add rx) tg_new calls = Ok (gt, rs) /\ history (tg_canon rx) calls rs E /\ tg_match_map rx gt tags = Ok (l, n) /\
    NoDup (as_idx (fold_left all_do (SInit :: reports l) a0)) /\
    collected E (fun e => exists ts, parse_series rx (e_text e) = Ok ts /\ ts <> [] /\ terms_match_map rx ts tags = Ok true) (fold_left all_do (SInit :: reports l) a0).
Proof. exact c76_all_tags_l. Qed.
Print Assumptions c76_all_tags.

Example c76_all_tags_example : let calls := [(B "seriesByTag('name=x*','a!=1')", 5%Z); (B "seriesByTag('name=y')", 6%Z); (B "seriesByTag('a!=1')", 8%Z)] in
  let tags := [(B "__name__", B "xyz"); (B "b", B "2")] in
  (forall text i ts t, In (text, i) calls -> parse_series rx_self text = Ok ts -> In t ts -> plain_term t /\ evaluable rx_self [t] tags) /\
  exists gt rs l n, run_adds (tg_add rx_self) tg_new calls = Ok (gt, rs) /\ tg_match_map rx_self gt tags = Ok (l, n) /\
    fold_left all_do (SInit :: reports l) all_new = mkAll 5%Z [8; 5]%Z [B "seriesByTag('a!=1')"; B "seriesByTag('__name__=x*','a!=1')"].
Proof.
  cbv zeta. assert (Q := proj1 c64_plain_example). cbv zeta in Q. split.
  - intros text i ts t I. apply (Q text i). cbn [In] in *. tauto.
  - do 4 eexists. split; [vm_compute; reflexivity|]. split; vm_compute; reflexivity.
Qed.

(** C76: and a GlobTree, among the globs that are neither plain text nor hidden; there a glob may be collected several times. *)
Theorem c76_all_glob : forall (calls : list (str * Z)) (gt : glob_tree) rs (E : list entry) (s : str) (a0 : all_store),
  run_adds gt_add gt_new calls = Ok (gt, rs) -> history gl_canon calls rs E ->
  (forall e, In e E -> tree_glob (e_text e)) -> clean s \/ (forall e, In e E -> lone_classes (e_text e)) ->
  exists f0 l, (forall f, f0 <= f -> gt_match f gt s = Ok (l, length l)) /\
    collected E (fun e => ~ plain_text (e_text e) /\ ~ hidden E e /\ denotes (e_text e) (symbols s)) (fold_left all_do (SInit :: reports l) a0).
Proof. exact c76_all_glob_l. Qed.
Print Assumptions c76_all_glob.

Example c76_all_glob_example : let calls := [(B "a*", 1%Z); (B "a*[bc]", 2%Z); (B "ab", 3%Z); (B "?b", 4%Z); (B "{b,c}?", 5%Z); (B "*{b?,[ac]x}c*d", 6%Z); (B "*{b?,[ac]x}[cж]", 7%Z)] in
  exists gt rs E l, run_adds gt_add gt_new calls = Ok (gt, rs) /\
  history gl_canon calls rs E /\ (forall e, In e E -> tree_glob (e_text e)) /\
  gt_match 30 gt (B "cb") = Ok (l, 2) /\ as_idx (fold_left all_do (SInit :: reports l) all_new) = [4; 5]%Z /\ as_str (fold_left all_do (SInit :: reports l) all_new) = [B "?b"; B "{b,c}?"].
Proof.
  destruct c34_exact_example as (gt & rs & E & R & H & _ & _ & T & _ & M & _). cbv zeta. do 4 eexists. split; [exact R|]. split; [exact H|]. split; [exact T|]. split; [exact M|]. split; vm_compute; reflexivity.
Qed.

(** C77: adding more globs to a GGlobTree never changes whether an earlier one is reported. *)
Theorem c77_gglob_later : forall (calls more : list (str * Z)) (gt gt' : gglob_tree) rs rs' (E E' : list entry) (path : str) (ps : list str),
  run_adds ggt_add ggt_new calls = Ok (gt, rs) -> history gg_canon calls rs E ->
  run_adds ggt_add ggt_new (calls ++ more) = Ok (gt', rs') -> history gg_canon (calls ++ more) rs' E' ->
  (forall e, In e E' -> exists gs, accepted_parts (e_text e) gs /\ Forall good_glob gs) -> clean path \/ (forall e, In e E' -> lone_parts (e_text e)) -> parts_of path ps ->
  exists l l', ggt_match gt path = Ok (l, length l) /\ ggt_match gt' path = Ok (l', length l') /\
    forall e, In e E -> In e E' /\ (In (e_node e, e_index e) l <-> In (e_node e, e_index e) l').
Proof. exact c77_gglob_later_l. Qed.
Print Assumptions c77_gglob_later.

Example c77_gglob_later_example : exists gt rs gt' rs', run_adds ggt_add ggt_new (firstn 1 use_calls) = Ok (gt, rs) /\ run_adds ggt_add ggt_new (firstn 1 use_calls ++ skipn 1 use_calls) = Ok (gt', rs') /\
  history gg_canon (firstn 1 use_calls ++ skipn 1 use_calls) rs' use_entries /\ (forall e, In e use_entries -> exists gs, accepted_parts (e_text e) gs /\ Forall good_glob gs) /\
  ggt_match gt (B "ax.b7") = Ok ([(B "a*.{b,c}?", 5%Z)], 1) /\ ggt_match gt' (B "ax.b7") = Ok ([(B "a*.{b,c}?", 5%Z); (B "?x.*[0-9ж]*", 2%Z)], 2).
Proof.
  destruct use_gglob as (gt' & rs' & R & H & G & _). do 2 eexists. exists gt', rs'. split; [vm_compute; reflexivity|]. split; [exact R|]. split; [exact H|]. split; [exact G|].
  split; [vm_compute; reflexivity|]. vm_compute in R. injection R as <- <-. vm_compute. reflexivity.
Qed.

(** C77: nor does adding more queries to a GTagsTree. *)
Theorem c77_tags_later : forall (rx : regexps) (calls more : list (str * Z)) (tags : list tag), tags <> [] ->
  (forall text i ts t, In (text, i) (calls ++ more) -> parse_series rx text = Ok ts -> In t ts -> plain_term t /\ evaluable rx [t] tags) ->
  exists gt rs E l n gt' rs' E' l' n', run_adds (tg_add rx) tg_new calls = Ok (gt, rs) /\ history (tg_canon rx) calls rs E /\
    run_adds (tg_add rx) tg_new (calls ++ more) = Ok (gt', rs') /\ history (tg_canon rx) (calls ++ more) rs' E' /\
    tg_match_map rx gt tags = Ok (l, n) /\ tg_match_map rx gt' tags = Ok (l', n') /\
    forall e, In e E -> In e E' /\ (In (e_node e, e_index e) l <-> In (e_node e, e_index e) l').
Proof. exact c77_tags_later_l. Qed.
Print Assumptions c77_tags_later.

(** C77: a GlobTree can stop reporting a glob when another is added. *)
Theorem c77_glob_later_refuted : exists gt rs gt' rs', run_adds gt_add gt_new [(B "a*", 1%Z)] = Ok (gt, rs) /\ run_adds gt_add gt_new ([(B "a*", 1%Z)] ++ [(B "a*[bc]", 2%Z)]) = Ok (gt', rs') /\
  gt_match 20 gt (B "ax") = Ok ([(B "a*", 1%Z)], 1) /\ gt_match 20 gt' (B "ax") = Ok ([], 0).
Proof. exact c77_glob_later_refuted_l. Qed.
Print Assumptions c77_glob_later_refuted.
