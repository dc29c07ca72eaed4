(** The statements of Props/PTags.v. *)
From Verif Require Import Model.GTags Spec.TagSpec Spec.RegistrySpec Spec.TagTreeSpec Spec.QuerySpec.
From Verif Require Import Proof.SortP Proof.SafeP Proof.TagsP Proof.KeyP Proof.TermsP Proof.CondP Proof.RoundP Proof.TotalP Proof.RegistryP Proof.TagTreeP Proof.SeriesP Proof.EscapeTop.
From Coq Require Import Lia ZifyBool ZifyN ZifyNat Permutation.

(*EX
(** Regular expressions that are all valid and match themselves. *)
Definition rx_self : regexps := mkRx (fun _ => true) (fun re v => str_eqb re v).
XE*)

(** C57: a decoder succeeds exactly on a name without '=', the separator, and raw arguments; it returns the unescaped name and arguments. *)
Lemma c57_decode_l : forall (p : str) (tags : list tag),
  (path_tags p = (tags, None) <-> exists name args l, p = name ++ "?"%char :: args /\ ~ In "?"%char name /\ ~ In "="%char name /\ raw_args "&" args l /\
     tags = (B "__name__", unescape name) :: map decode_tag l) /\
  (graphite_path_tags p = (tags, None) <-> exists name args l, p = name ++ ";"%char :: args /\ ~ In ";"%char name /\ ~ In "="%char name /\ raw_args ";" args l /\
     tags = (B "__name__", unescape name) :: map decode_tag l).
Proof. intros p tags. split; apply path_tags_iff. Qed.
(*EX
Example c57_decode_example : path_tags (B "cpu%3Aload?host=a+b&dc=x%26y&") = ([(B "__name__", B "cpu:load"); (B "host", B "a b"); (B "dc", B "x&y")], None) /\
  graphite_path_tags (B "cpu;host=a&b;dc=x=y") = ([(B "__name__", B "cpu"); (B "host", B "a&b"); (B "dc", B "x=y")], None) /\
  raw_args ";" (B "host=a&b;dc=x=y") [(B "host", B "a&b"); (B "dc", B "x=y")].
Proof.
  split; [vm_compute; reflexivity|]. split; [vm_compute; reflexivity|]. apply (ra_more ";" (B "host") (B "a&b") (B "dc=x=y")).
  - cbn. intuition discriminate.
  - cbn. intuition discriminate.
  - apply (ra_last ";" (B "dc") (B "x=y")); cbn; intuition discriminate.
Qed.
XE*)
(** C57: what was encoded is decoded. *)
Lemma c57_round_trip_l : forall (name : str) (tags : list tag),
  path_tags (encode_path "?" "&" name tags) = ((B "__name__", name) :: tags, None) /\
  graphite_path_tags (encode_path ";" ";" name tags) = ((B "__name__", name) :: tags, None).
Proof.
  intros name tags.
  assert (Q : forall s c, In c [" "; "&"; "="; "?"; ";"; "/"; "#"]%char -> ~ In c (query s)) by (intros s c Ic I; apply c53_query_safe_l in I as [_ I]; auto).
  assert (D : tags = map decode_tag (map (fun t => (query (fst t), query (snd t))) tags)).
  { rewrite map_map. rewrite <- (map_id tags) at 1. apply map_ext. intros [k v]. unfold decode_tag. cbn. now rewrite !c51_query_round_trip_l. }
  split; apply path_tags_iff; exists (query name); do 2 eexists; (split; [reflexivity|]); (split; [apply Q; cbn; auto 8|]); (split; [apply Q; cbn; auto 8|]);
    (split; [apply raw_encode; auto|]); rewrite c51_query_round_trip_l; f_equal; exact D.
Qed.
(*EX
Example c57_round_trip_example : encode_path ";" ";" (B "a;b") [(B "k=1", B "x y"); (B "k", [])] = B "a%3Bb;k%3D1=x+y;k=" /\
  graphite_path_tags (B "a%3Bb;k%3D1=x+y;k=") = ([(B "__name__", B "a;b"); (B "k=1", B "x y"); (B "k", [])], None).
Proof. split; vm_compute; reflexivity. Qed.
XE*)

(** C58: the map decoders return the map of the slice and fail exactly when the slice decoder fails; the keys of the reused map play no part; a nil map panics. *)
Lemma c58_map_l : forall (p : str) (m : list tag),
  (exists tags e e', path_tags p = (tags, e) /\ path_tags_map p = (tags_map tags, e') /\ path_tags_map_b p (Some m) = Ok (tags_map tags, e') /\ (e = None <-> e' = None)) /\
  (exists tags e, graphite_path_tags p = (tags, e) /\ graphite_path_tags_map p = (tags_map tags, e) /\ graphite_path_tags_map_b p (Some m) = Ok (tags_map tags, e)) /\
  path_tags_map_b p None = Panic /\ graphite_path_tags_map_b p None = Panic.
Proof.
  intros p m. split; [|split; [|split; reflexivity]].
  - unfold path_tags_map, path_tags_map_b. rewrite map_b_eq, path_map_eq. unfold path_tags.
    destruct (path_reason (fun name => B "not found in " ++ name) (fun _ => B "not found") "?"%char "&"%char p) as [E N].
    destruct (path_tags_gen (fun name => B "not found in " ++ name) "?"%char "&"%char p) as [tags e], (path_tags_gen (fun _ => B "not found") "?"%char "&"%char p) as [tags' e'].
    cbn [fst snd] in *. subst tags'. exists tags, e, e'. auto.
  - destruct (graphite_path_tags p) as [tags e] eqn:E. exists tags, e. split; auto. unfold graphite_path_tags_map, graphite_path_tags_map_b. rewrite map_b_eq, path_map_eq. unfold graphite_path_tags in E. rewrite E. auto.
Qed.
(*EX
Example c58_map_example : path_tags (B "n?a=1&a=2&b=3") = ([(B "__name__", B "n"); (B "a", B "1"); (B "a", B "2"); (B "b", B "3")], None) /\
  path_tags_map_b (B "n?a=1&a=2&b=3") (Some [(B "z", B "9"); (B "a", B "0")]) = Ok ([(B "__name__", B "n"); (B "a", B "2"); (B "b", B "3")], None).
Proof. split; vm_compute; reflexivity. Qed.
XE*)
(** C58: the map holds for every key its last value, and no other key. *)
Lemma c58_last_wins_l : forall (tags : list tag) (k v : str), value_of (tags_map tags) k = Some v <-> last_value tags k v.
Proof. intros. apply tags_map_value. Qed.
(*EX
Example c58_last_wins_example : last_value [(B "a", B "1"); (B "b", B "3"); (B "a", B "2")] (B "a") (B "2").
Proof. exists [(B "a", B "1"); (B "b", B "3")], []. split; [reflexivity|easy]. Qed.
XE*)

(** C59: the order of the conditions matters neither for acceptance nor for the terms written, the canonical text or the matches. *)
Lemma c59_order_l : forall (rx : regexps) (l l' : list str), Permutation l l' ->
  (exists ts ts', parse_conditions rx l = Ok ts /\ parse_conditions rx l' = Ok ts' /\ Permutation ts ts' /\ map condition ts = map condition ts' /\
     terms_write ts = terms_write ts' /\ forall tags, evaluable rx ts tags -> terms_match_map rx ts tags = terms_match_map rx ts' tags) \/
  (exists e e', parse_conditions rx l = Err e /\ parse_conditions rx l' = Err e').
Proof.
  intros rx l l' P. destruct (conditions_perm rx l l' P) as [(ts & ts' & A & A' & Pm & C)|(e & e' & A & A')]; [left|right; eauto].
  exists ts, ts'. repeat match goal with |- _ /\ _ => split end; auto; [now apply write_conditions|]. intros tags Ev. now apply match_map_perm.
Qed.
(*EX
Example c59_order_example :
  bind (parse_conditions rx_self [B "b=1"; B "name=x"; B "a!=~y"]) (fun ts => Ok (terms_write ts)) = Ok (B "seriesByTag('__name__=x','a!=~y','b=1')") /\
  parse_conditions rx_self [B "b=1"; B "name=x"; B "a!=~y"] = parse_conditions rx_self [B "a!=~y"; B "name=x"; B "b=1"].
Proof. split; vm_compute; reflexivity. Qed.
XE*)

(** C60: the canonical text of an accepted query is accepted and gives the same terms, when no part holds a single quote, no = value
    starts with '~', no key is blank, and values are as they were given. *)
Lemma c60_round_trip_l : forall (rx : regexps) (q : str) (ts : list tterm), parse_series rx q = Ok ts -> (forall t, In t ts -> plain_term t) ->
  parse_series rx (terms_write ts) = Ok ts.
Proof. intros. eapply series_round_trip; eauto. Qed.
(*EX
Example c60_round_trip_example : exists ts, parse_series rx_self (B " seriesByTag( ""b=1"", 'name = x*' )") = Ok ts /\ (forall t, In t ts -> plain_term t) /\ terms_write ts = B "seriesByTag('__name__=x*','b=1')".
Proof.
  eexists. split; [vm_compute; reflexivity|]. split; [|vm_compute; reflexivity].
  intros t [<-|[<-|[]]]; (split; [discriminate|]); (split; [vm_compute; intuition discriminate|]); (split; [vm_compute; intuition discriminate|]); (split; [reflexivity|]); intros _; (split; [discriminate|reflexivity]).
Qed.
XE*)
(** C60: without those conditions the round trip fails: a quote in a value, '~' after "= ", a glob with one list value. *)
Lemma c60_round_trip_refuted_l : forall rx : regexps,
  (exists ts e, parse_series rx (B "seriesByTag(""a=b'c"")") = Ok ts /\ parse_series rx (terms_write ts) = Err e) /\
  (exists ts, parse_series rx (B "seriesByTag('a= ~b')") = Ok ts /\ parse_series rx (terms_write ts) <> Ok ts) /\
  (exists ts, parse_series rx (B "seriesByTag('a={b*}')") = Ok ts /\ parse_series rx (terms_write ts) <> Ok ts).
Proof.
  intro rx. split; [|split].
  - eexists; eexists. split; [vm_compute; reflexivity|]. vm_compute. reflexivity.
  - eexists. split; [vm_compute; reflexivity|]. destruct rx as [rok rma]. vm_compute. match goal with |- context [rok ?x] => destruct (rok x) end; discriminate.
  - eexists. split; [vm_compute; reflexivity|]. vm_compute. discriminate.
Qed.

(** C61: the conditions accept a map of tags exactly when each holds; what a value must be for one condition. *)
Lemma c61_map_l : forall (rx : regexps) (terms : list tterm) (tags : list tag),
  (terms_match_map rx terms tags = Ok true <-> forall t, In t terms -> holds rx t tags) /\
  (evaluable rx terms tags -> exists b, terms_match_map rx terms tags = Ok b).
Proof. intros. split; [apply match_map_true|apply match_map_total]. Qed.
Lemma c61_accepts_l : forall (rx : regexps) (t : tterm) (v : str), tt_match rx t v = Ok true <-> accepts rx t v.
Proof. intros. apply match_accepts. Qed.
(*EX
Example c61_map_example : exists ts, parse_series rx_self (B "seriesByTag('name=x*','a!=1','b=~q')") = Ok ts /\
  terms_match_map rx_self ts [(B "b", B "q"); (B "__name__", B "xyz")] = Ok true /\
  terms_match_map rx_self ts [(B "b", B "q"); (B "__name__", B "xyz"); (B "a", B "1")] = Ok false /\
  terms_match_map rx_self ts [(B "__name__", B "xyz")] = Ok false.
Proof. eexists. split; [vm_compute; reflexivity|]. repeat match goal with |- _ /\ _ => split end; vm_compute; reflexivity. Qed.
XE*)

(** C62: on tags sorted by key (__name__ first) the slice and the map version agree for every parsed query whose != and !=~ keys are present. *)
Lemma c62_agree_l : forall (rx : regexps) (q : str) (ts : list tterm) (tags : list tag), parse_series rx q = Ok ts -> keys_sorted (map fst tags) ->
  (forall t, In t ts -> ~ positive (tt_op t) -> value_of tags (tt_key t) <> None) ->
  terms_match_tags rx ts tags = terms_match_map rx ts (tags_map tags).
Proof.
  intros rx q ts tags P S A. assert (O : terms_ordered ts).
  { unfold parse_series in P. destruct (series_by_tag_args q 128) as [args|e| |]; cbn [bind] in P; try discriminate. unfold parse_conditions in P.
    destruct (parse_all rx args) as [us|e| |]; cbn [bind] in P; try discriminate. injection P as <-. apply isort_ordered. }
  rewrite (match_tags_gen rx ts [] tags); auto. apply match_map_ext. intro k. symmetry. now apply sorted_value.
Qed.
(*EX
Example c62_agree_example : exists ts, parse_series rx_self (B "seriesByTag('name=x*','a!=1','b=~q')") = Ok ts /\
  let tags := [(B "__name__", B "xyz"); (B "a", B "2"); (B "b", B "q")] in
  keys_sorted (map fst tags) /\ (forall t, In t ts -> ~ positive (tt_op t) -> value_of tags (tt_key t) <> None) /\ terms_match_tags rx_self ts tags = Ok true.
Proof.
  eexists. split; [vm_compute; reflexivity|]. cbv zeta. split; [|split; [|vm_compute; reflexivity]].
  - cbn. unfold key_lt. repeat split; auto; intros k I; (repeat destruct I as [<-|I]); try easy; (left; split; [reflexivity|discriminate]) || (right; split; [discriminate|reflexivity]).
  - intros t [<-|[<-|[<-|[]]]] _; discriminate.
Qed.
XE*)
(** C62: with a != or !=~ key that is absent the slice version looks at no later tag: conditions after it hold exactly when they are
    negative. *)
Lemma c62_absent_l : forall (rx : regexps) (q : str) (before : list tterm) (t : tterm) (after : list tterm) (tags : list tag),
  parse_series rx q = Ok (before ++ t :: after) -> keys_sorted (map fst tags) ->
  (forall u, In u before -> ~ positive (tt_op u) -> value_of tags (tt_key u) <> None) -> ~ positive (tt_op t) -> value_of tags (tt_key t) = None ->
  terms_match_tags rx (before ++ t :: after) tags =
  bind (terms_match_map rx before tags) (fun b => Ok (b && forallb (fun u => op_negative (tt_op u)) after)).
Proof.
  intros rx q a t b tags P S A N V. assert (O : terms_ordered (a ++ t :: b)).
  { unfold parse_series in P. destruct (series_by_tag_args q 128) as [args|e| |]; cbn [bind] in P; try discriminate. unfold parse_conditions in P.
    destruct (parse_all rx args) as [us|e| |]; cbn [bind] in P; try discriminate. apply ok_inj in P. rewrite <- P. apply isort_ordered. }
  now apply match_tags_absent.
Qed.
(** C62: so the two versions differ, both ways. *)
Lemma c62_agree_refuted_l : forall rx : regexps,
  (exists ts, parse_series rx (B "seriesByTag('a!=x','b=y')") = Ok ts /\ terms_match_tags rx ts [(B "b", B "y")] = Ok false /\ terms_match_map rx ts [(B "b", B "y")] = Ok true) /\
  (exists ts, parse_series rx (B "seriesByTag('a!=x','b!=y')") = Ok ts /\ terms_match_tags rx ts [(B "b", B "y")] = Ok true /\ terms_match_map rx ts [(B "b", B "y")] = Ok false).
Proof. intro rx. split; (eexists; split; [vm_compute; reflexivity|]; split; vm_compute; reflexivity). Qed.
(*EX
Example c62_absent_example : exists t after, parse_series rx_self (B "seriesByTag('a!=x','b=y')") = Ok ([] ++ t :: after) /\ ~ positive (tt_op t) /\ value_of [(B "b", B "y")] (tt_key t) = None.
Proof. do 2 eexists. split; [vm_compute; reflexivity|]. split; [intros [H|H]; discriminate|reflexivity]. Qed.
XE*)

(** C63: in sorted keys the search finds a key exactly when it is present, from any start position. *)
Lemma c63_find_l : forall (keys : list str) (key : str) (start : Z), keys_sorted keys -> key <> [] -> (start < Z.of_nat (length keys))%Z ->
  exists r, find_key keys key start = Ok r /\
    match r with Some i => (0 <= i)%Z /\ nth_error keys (Z.to_nat i) = Some key | None => ~ In key keys end.
Proof. intros. now apply find_key_ok. Qed.
(*EX
Example c63_find_example : let keys := [B "__name__"; B "a"; B "b"; B "d"] in keys_sorted keys /\ find_key keys (B "b") 3 = Ok (Some 2%Z) /\ find_key keys (B "c") 1 = Ok None.
Proof.
  cbv zeta. split; [|split; vm_compute; reflexivity]. cbn. unfold key_lt.
  repeat split; auto; intros k I; (repeat destruct I as [<-|I]); try easy; (left; split; [reflexivity|discriminate]) || (right; split; [discriminate|reflexivity]).
Qed.
XE*)

(** ** Trees *)
Lemma hist_ok rx calls gt rs E : (forall c, In c calls -> named_keys rx (fst c)) -> run_adds (tg_add rx) tg_new calls = Ok (gt, rs) -> history (tg_canon rx) calls rs E -> tagtree_ok rx E gt.
Proof.
  intros N R H. destruct (tg_history rx calls N) as (gt' & rs' & E' & R' & H' & T). rewrite R in R'. apply ok_inj in R'. injection R' as <- <-.
  destruct (history_fun _ _ _ _ H _ _ H') as [_ ->]. exact T.
Qed.
(** C64: after any calls of Add on queries without blank keys, MatchByTagsMap on a non-empty map reports exactly the accepted queries (with
    conditions) that accept the map, each once. *)
Lemma c64_exact_l : forall (rx : regexps) (calls : list (str * Z)) (gt : gtags_tree) (rs : list add_res) (E : list entry) (tags : list tag),
  (forall c, In c calls -> named_keys rx (fst c)) -> run_adds (tg_add rx) tg_new calls = Ok (gt, rs) -> history (tg_canon rx) calls rs E -> tags_coherent rx E tags -> tags <> [] ->
  exists l n, tg_match_map rx gt tags = Ok (l, n) /\ NoDup (map snd l) /\
    forall q i, In (q, i) l <-> exists e ts, In e E /\ e_node e = q /\ e_index e = i /\ parse_series rx (e_text e) = Ok ts /\ ts <> [] /\ terms_match_map rx ts tags = Ok true.
Proof.
  intros rx calls gt rs E tags N R H C Nt. assert (T := hist_ok rx calls gt rs E N R H). do 2 eexists. split; [apply (map_reports rx E); auto|]. now apply reported.
Qed.
(** C64: the same with the simpler requirement that all conditions can be written down and read back. *)
Lemma c64_plain_l : forall (rx : regexps) (calls : list (str * Z)) (tags : list tag), tags <> [] ->
  (forall text i ts t, In (text, i) calls -> parse_series rx text = Ok ts -> In t ts -> plain_term t /\ evaluable rx [t] tags) ->
  exists gt rs E l n, run_adds (tg_add rx) tg_new calls = Ok (gt, rs) /\ history (tg_canon rx) calls rs E /\ tg_match_map rx gt tags = Ok (l, n) /\ NoDup (map snd l) /\
    forall q i, In (q, i) l <-> exists e ts, In e E /\ e_node e = q /\ e_index e = i /\ parse_series rx (e_text e) = Ok ts /\ ts <> [] /\ terms_match_map rx ts tags = Ok true.
Proof.
  intros rx calls tags Nt Q. assert (N : forall c, In c calls -> named_keys rx (fst c)).
  { intros [text i] I ts t P It. destruct (Q text i ts t I P It) as [(K & _) _]. exact K. }
  destruct (tg_history rx calls N) as (gt & rs & E & R & H & T). exists gt, rs, E.
  destruct (c64_exact_l rx calls gt rs E tags N R H) as (l & n & X); auto; [|exists l, n; auto].
  apply plain_coherent. intros t (e & ts & Ie & P & It). destruct (history_calls _ _ _ _ H e Ie) as (i & I). eapply Q; eauto.
Qed.
(*EX
Example c64_plain_example : let calls := [(B "seriesByTag('name=x*','a!=1')", 5%Z); (B "seriesByTag('name=y')", 6%Z); (B "seriesByTag('a!=1', 'name=x*')", 7%Z); (B "seriesByTag('a!=1')", 8%Z)] in
  let tags := [(B "__name__", B "xyz"); (B "b", B "2")] in
  (forall text i ts t, In (text, i) calls -> parse_series rx_self text = Ok ts -> In t ts -> plain_term t /\ evaluable rx_self [t] tags) /\
  exists gt rs, run_adds (tg_add rx_self) tg_new calls = Ok (gt, rs) /\ tg_match_map rx_self gt tags = Ok ([(B "seriesByTag('a!=1')", 8%Z); (B "seriesByTag('__name__=x*','a!=1')", 5%Z)], 2).
Proof.
  cbv zeta. split; [|do 2 eexists; split; [vm_compute; reflexivity|vm_compute; reflexivity]].
  intros text i ts t I P It. assert (Q : forall u, In u ts -> (tt_key u <> [] /\ ~ In apos (tt_key u) /\ ~ In apos (tt_value u) /\ trim_space (tt_value u) = tt_value u /\ (exists c v, tt_value u = c :: v /\ c <> "~"%char) /\
    match tt_glob u with Some g => g_glob g = tt_value u | None => has_wildcard (tt_value u) = false end) /\
    (exists b, tt_match rx_self u (B "xyz") = Ok b)).
  { cbn [In] in I. destruct I as [I|[I|[I|[I|[]]]]]; injection I as <- <-; vm_compute in P; apply ok_inj in P; subst ts; intros u Iu; cbn [In] in Iu;
      (repeat destruct Iu as [<-|Iu]); try easy; (split; [repeat match goal with |- _ /\ _ => split end; try discriminate; try reflexivity; try (vm_compute; intuition discriminate); do 2 eexists; split; [reflexivity|discriminate]|eexists; vm_compute; reflexivity]). }
  destruct (Q t It) as ((K & A & A' & Tr & (c & v & Ev & Nc) & G) & M). split.
  - unfold plain_term. repeat match goal with |- _ /\ _ => split end; auto. intros _. split; auto. intros w Ew. rewrite Ew in Ev. injection Ev as <- _. congruence.
  - intros u w [<-|[]] V. clear - I P It V M. cbn [In] in I. destruct I as [I|[I|[I|[I|[]]]]]; injection I as <- <-; vm_compute in P; apply ok_inj in P; subst ts; cbn [In] in It;
      (repeat destruct It as [<-|It]); try easy; vm_compute in V; try discriminate V; injection V as <-; exact M.
Qed.
XE*)
(** C64: with no tags at all nothing is reported, although '!=' conditions alone would accept. *)
Lemma c64_no_tags_refuted_l : forall (rx : regexps) (gt : gtags_tree), tg_match_map rx gt [] = Ok ([], 0) /\
  exists ts, parse_series rx (B "seriesByTag('a!=1')") = Ok ts /\ terms_match_map rx ts [] = Ok true.
Proof. intros rx gt. split; [unfold tg_match_map; now destruct (tg_root gt)|]. eexists. split; [vm_compute; reflexivity|vm_compute; reflexivity]. Qed.
(** C64: without coherence a query is reported by mistake: the tree takes the literal 'a={b*}' for the glob 'a=b*' that was added before. *)
Lemma c64_mixed_refuted_l : forall rx : regexps, exists gt rs, run_adds (tg_add rx) tg_new [(B "seriesByTag('a=b*','c=1')", 1%Z); (B "seriesByTag('a={b*}')", 2%Z)] = Ok (gt, rs) /\
  tg_match_map rx gt [(B "a", B "bx")] = Ok ([(B "seriesByTag('a=b*')", 2%Z)], 1) /\
  exists ts, parse_series rx (B "seriesByTag('a={b*}')") = Ok ts /\ terms_match_map rx ts [(B "a", B "bx")] = Ok false.
Proof. intro rx. do 2 eexists. split; [vm_compute; reflexivity|]. split; [vm_compute; reflexivity|]. eexists. split; [vm_compute; reflexivity|vm_compute; reflexivity]. Qed.

(** C65: on sorted tags MatchByTags reports the same in the same order, after the query without conditions if there is one. *)
Lemma c65_agree_l : forall (rx : regexps) (calls : list (str * Z)) (gt : gtags_tree) (rs : list add_res) (E : list entry) (tags : list tag),
  (forall c, In c calls -> named_keys rx (fst c)) -> run_adds (tg_add rx) tg_new calls = Ok (gt, rs) -> history (tg_canon rx) calls rs E -> tags_coherent rx E tags -> tags <> [] -> keys_sorted (map fst tags) ->
  exists l n, tg_match_map rx gt tags = Ok (l, n) /\
    ((forall e, In e E -> parse_series rx (e_text e) <> Ok []) -> tg_match_tags rx gt tags = Ok (l, n)) /\
    (forall e, In e E -> parse_series rx (e_text e) = Ok [] -> tg_match_tags rx gt tags = Ok ((e_node e, e_index e) :: l, n)).
Proof.
  intros rx calls gt rs E tags N R H C Nt S. assert (T := hist_ok rx calls gt rs E N R H). do 2 eexists. split; [apply (map_reports rx E); auto|].
  rewrite (tags_reports rx E); auto. destruct T as (_ & _ & _ & _ & TE & _). split.
  - intro A. destruct (tg_end gt) as [x|] eqn:Ex; [|reflexivity]. destruct (proj1 (TE x) eq_refl) as (e & Ie & P & _). now apply A in P.
  - intros e Ie P. rewrite (proj2 (TE (e_node e, e_index e))) by eauto. reflexivity.
Qed.
(*EX
Example c65_agree_example : exists gt rs, run_adds (tg_add rx_self) tg_new [(B "seriesByTag('name=x*','a!=1')", 5%Z); (B "seriesByTag()", 6%Z); (B "seriesByTag('b=2')", 8%Z)] = Ok (gt, rs) /\
  let tags := [(B "__name__", B "xyz"); (B "b", B "2")] in
  tg_match_map rx_self gt tags = Ok ([(B "seriesByTag('b=2')", 8%Z); (B "seriesByTag('__name__=x*','a!=1')", 5%Z)], 2) /\
  tg_match_tags rx_self gt tags = Ok ([(B "seriesByTag()", 6%Z); (B "seriesByTag('b=2')", 8%Z); (B "seriesByTag('__name__=x*','a!=1')", 5%Z)], 2).
Proof. do 2 eexists. split; [vm_compute; reflexivity|]. cbv zeta. split; vm_compute; reflexivity. Qed.
XE*)

(** C66: AddTerms makes nothing match: the reports stay as they were. *)
Lemma c66_add_terms_refuted_l : forall (rx : regexps) (calls : list (str * Z)) (gt : gtags_tree) (rs : list add_res) (E : list entry) (terms : list tterm) (i : Z),
  (forall c, In c calls -> named_keys rx (fst c)) -> run_adds (tg_add rx) tg_new calls = Ok (gt, rs) -> history (tg_canon rx) calls rs E -> (forall t, In t terms -> tt_key t <> []) ->
  exists gt' r, tg_add_terms gt terms i = Ok (gt', r) /\
    forall tags, tags_coherent rx E tags -> evaluable rx terms tags ->
      tg_match_map rx gt' tags = tg_match_map rx gt tags /\ (keys_sorted (map fst tags) -> tg_match_tags rx gt' tags = tg_match_tags rx gt tags).
Proof.
  intros rx calls gt rs E terms i N R H K. assert (T := hist_ok rx calls gt rs E N R H). unfold tg_add_terms. destruct (null terms); [eauto 6|]. destruct (i <? 0)%Z; [eauto 6|]. cbv zeta.
  destruct (lookup str_eqb _ _); [eauto 6|]. destruct (lookup Z.eqb _ _); [eauto 6|]. destruct T as (_ & _ & W & _).
  set (T' := fun t => accepted_term rx E t \/ In t terms). assert (W' : wf_item T' (tg_root gt)) by (apply (wf_mono (accepted_term rx E)); [now left|auto]).
  destruct (insert_none T' terms (tg_root gt)) as (root' & -> & Wr & _ & _ & F); auto.
  { apply Forall_forall. intros t It. split; [now right|auto]. }
  cbn [bind]. do 2 eexists. split; [reflexivity|]. intros tags [C _] Ev. unfold tg_match_map, tg_match_tags. cbn [tg_root tg_end]. destruct tags as [|x tags]; [split; [|intros _; f_equal]; now destruct root', (tg_root gt)|]. remember (x :: tags) as tg.
  assert (Ev' : forall t v, T' t -> value_of tg (tt_key t) = Some v -> exists b, tt_match rx t v = Ok b) by (intros t v [A|A] V; eauto).
  assert (Nt : tg <> []) by (rewrite Heqtg; discriminate).
  rewrite (match_map_flat rx tg T' Nt Ev' root' Wr), (match_map_flat rx tg T' Nt Ev' (tg_root gt) W'). split; [now rewrite F|]. intro S. f_equal.
  rewrite (match_tags_flat rx tg T' Nt S Ev' root' Wr), (match_tags_flat rx tg T' Nt S Ev' (tg_root gt) W'). now rewrite F.
Qed.
(*EX
Example c66_add_terms_example : exists ts gt' r, parse_series rx_self (B "seriesByTag('b=2')") = Ok ts /\ tg_add_terms tg_new ts 3 = Ok (gt', r) /\ r = ([], 3%Z, None) /\
  terms_match_map rx_self ts [(B "b", B "2")] = Ok true /\ tg_match_map rx_self gt' [(B "b", B "2")] = Ok ([], 0).
Proof. do 3 eexists. split; [vm_compute; reflexivity|]. split; [vm_compute; reflexivity|]. repeat match goal with |- _ /\ _ => split end; vm_compute; reflexivity. Qed.
XE*)

(** C67: in every tree, MatchByTagsMap counts its reports; MatchByTags does not count the query without conditions. *)
Lemma c67_count_l : forall (rx : regexps) (gt : gtags_tree) (tags : list tag) (l : list term) (n : nat),
  (tg_match_map rx gt tags = Ok (l, n) -> n = length l) /\
  (tg_match_tags rx gt tags = Ok (l, n) -> length l = n + match tg_end gt with Some _ => 1 | None => 0 end).
Proof.
  intros rx gt tags l n. split; [apply counted_map|]. unfold tg_match_tags. destruct (ti_match_tags rx (tg_root gt) tags) as [[l1 n1]|e| |] eqn:E; destruct (tg_end gt) as [x|]; cbn; try discriminate;
    intros [= <- <-]; assert (C := counted_tags rx tags (tg_root gt) l1 n1 E); subst n1; cbn; lia.
Qed.
(*EX
Example c67_count_example : exists gt rs l l', run_adds (tg_add rx_self) tg_new [(B "seriesByTag('a=1')", 5%Z); (B "seriesByTag('b=*','a!=2')", 4%Z); (B "seriesByTag()", 6%Z); (B "seriesByTag('a=2')", 7%Z)] = Ok (gt, rs) /\
  tg_match_map rx_self gt [(B "a", B "1"); (B "b", B "x")] = Ok (l, 2) /\ length l = 2 /\ tg_match_tags rx_self gt [(B "a", B "1"); (B "b", B "x")] = Ok (l', 2) /\ length l' = 3.
Proof. do 4 eexists. split; [vm_compute; reflexivity|]. split; [vm_compute; reflexivity|]. split; [reflexivity|]. split; [vm_compute; reflexivity|reflexivity]. Qed.
XE*)
Lemma c67_count_refuted_l : forall rx : regexps, exists gt rs, run_adds (tg_add rx) tg_new [(B "seriesByTag()", 6%Z)] = Ok (gt, rs) /\
  tg_match_tags rx gt [(B "a", B "1")] = Ok ([(B "seriesByTag()", 6%Z)], 0) /\ tg_match_map rx gt [(B "a", B "1")] = Ok ([], 0).
Proof. intro rx. do 2 eexists. split; [vm_compute; reflexivity|]. split; vm_compute; reflexivity. Qed.

(** C68: calls of Add on queries without blank keys never panic and return what the ideal registry returns. *)
Lemma c68_add_l : forall (rx : regexps) (calls : list (str * Z)), (forall c, In c calls -> named_keys rx (fst c)) ->
  exists gt rs E, run_adds (tg_add rx) tg_new calls = Ok (gt, rs) /\ history (tg_canon rx) calls rs E /\ distinct E.
Proof. intros rx calls N. destruct (tg_history rx calls N) as (gt & rs & E & R & H & T). exists gt, rs, E. split; auto. split; auto. now apply history_distinct in H. Qed.
(*EX
Example c68_add_example : named_keys rx_self (B "seriesByTag('name=x*','a!=1')") /\
  exists gt, run_adds (tg_add rx_self) tg_new [(B "seriesByTag('b=1', 'a=1')", 3%Z); (B "seriesByTag('a=1','b=1')", 4%Z); (B "seriesByTag('c=1')", 3%Z); (B "seriesByTag(c)", 5%Z)] =
  Ok (gt, [(B "seriesByTag('a=1','b=1')", 3%Z, None); (B "seriesByTag('a=1','b=1')", 3%Z, Some ErrGlobExist); (B "seriesByTag('a=1','b=1')", 0%Z, Some ErrIndexDup); ([], 0%Z, Some (ErrNodeNotTerminated (B "c")))]).
Proof.
  split; [|eexists; vm_compute; reflexivity]. intros ts t P I. vm_compute in P. apply ok_inj in P. subst ts. cbn [In] in I. (repeat destruct I as [<-|I]); easy.
Qed.
XE*)
(** C68: a blank key makes Add panic in a new tree. *)
Lemma c68_blank_refuted_l : forall rx : regexps, tg_add rx tg_new (B "seriesByTag(' =x')") 0 = Panic.
Proof. intro rx. vm_compute. reflexivity. Qed.
(** C68: in other trees the blank key is taken for the second one in use. *)
Lemma c68_blank_mixed_refuted_l : forall rx : regexps, exists gt rs,
  run_adds (tg_add rx) tg_new [(B "seriesByTag('a=1')", 1%Z); (B "seriesByTag('b=1')", 2%Z); (B "seriesByTag(' =x')", 3%Z)] = Ok (gt, rs) /\
  tg_match_map rx gt [(B "b", B "x")] = Ok ([(B "seriesByTag('=x')", 3%Z)], 1).
Proof. intro rx. do 2 eexists. split; [vm_compute; reflexivity|vm_compute; reflexivity]. Qed.

(** C81: reading a query gives conditions or an error for every text: no panic, no loop. *)
Lemma c81_total_l : forall (rx : regexps) (q : str), (exists ts, parse_series rx q = Ok ts) \/ (exists e, parse_series rx q = Err e).
Proof. intros rx q. pose proof (series_fine rx q) as F. destruct (parse_series rx q); [left|right|easy|easy]; eauto. Qed.
(** C81: what is read from a query is what its text says: the text is a query with at most 128 conditions, each is read from its text, and they are put in order. *)
Lemma c81_sound_l : forall (rx : regexps) (q : str) (ts : list tterm), parse_series rx q = Ok ts ->
  exists l us, query_text q l /\ (length l <= 128)%nat /\ Forall2 (reads rx) l us /\ Permutation us ts /\ in_order ts.
Proof.
  intros rx q ts. unfold parse_series. destruct (series_by_tag_args q 128) as [l|e| |] eqn:E; cbn [bind]; try discriminate. intro P. apply args_iff in E as [Q L].
  apply conditions_reads in P as (us & R & Pm & O). eauto 8.
Qed.
(*EX
Example c81_sound_example : exists ts, parse_series rx_self (B " seriesByTag( ""b= 1"", 'name = x*',,'' ) ") = Ok ts /\ map condition ts = [(B "__name__", OpEq, B "x*"); (B "b", OpEq, B "1")].
Proof. eexists. split; [vm_compute; reflexivity|reflexivity]. Qed.
XE*)
(** C81: every text of a query with at most 128 conditions, each the text of a condition, is read. *)
Lemma c81_complete_l : forall (rx : regexps) (q : str) (l : list str) (us : list tterm), query_text q l -> (length l <= 128)%nat -> Forall2 (reads rx) l us ->
  exists ts, parse_series rx q = Ok ts /\ Permutation us ts /\ in_order ts.
Proof.
  intros rx q l us Q L R. assert (E : series_by_tag_args q 128 = Ok l) by (apply args_iff; auto). unfold parse_series. rewrite E. cbn [bind]. now apply reads_conditions.
Qed.
(*EX
Example c81_complete_example : query_text (B " seriesByTag('b= 1', ""c!=~d"")") [B "b= 1"; B "c!=~d"] /\
  Forall2 (reads rx_self) [B "b= 1"; B "c!=~d"] [mkTerm (B "b") OpEq (B "1") None; mkTerm (B "c") OpNotMatch (B "d") None].
Proof.
  split; [now apply args_iff with (cap := 128%nat); vm_compute|]. constructor; [|constructor; [|constructor]]; apply condition_iff; vm_compute; reflexivity.
Qed.
XE*)
(** C81: a list of texts of conditions is read likewise, whatever its length. *)
Lemma c81_conditions_l : forall (rx : regexps) (l : list str),
  (forall ts, parse_conditions rx l = Ok ts -> exists us, Forall2 (reads rx) l us /\ Permutation us ts /\ in_order ts) /\
  (forall us, Forall2 (reads rx) l us -> exists ts, parse_conditions rx l = Ok ts /\ Permutation us ts /\ in_order ts).
Proof. intros rx l. split; [intros ts H; now apply conditions_reads|intros us H; now apply reads_conditions]. Qed.
(** C81: the text of a condition determines the condition. *)
Lemma c81_unique_l : forall (rx : regexps) (s : str) (t u : tterm), reads rx s t -> reads rx s u -> t = u.
Proof. intros rx s t u T U. apply condition_iff in T, U. congruence. Qed.
(*EX
Example c81_unique_example : exists g, reads rx_self (B "name!= {a,b}c") (mkTerm (B "__name__") OpNe (B "{a,b}c") (Some g)).
Proof. eexists. apply condition_iff. vm_compute. reflexivity. Qed.
XE*)
(** C81: a query of 129 conditions is refused. *)
Lemma c81_limit_l : forall (rx : regexps) (q : str) (l : list str), query_text q l -> (128 < length l)%nat -> exists e, parse_series rx q = Err e.
Proof.
  intros rx q l Q L. destruct (c81_total_l rx q) as [[ts H]|H]; auto. unfold parse_series in H. destruct (series_by_tag_args q 128) as [l'|e| |] eqn:E; cbn [bind] in H; try discriminate.
  apply args_iff in E as [Q' L']. exfalso. assert (A : series_by_tag_args q (length l) = Ok l) by now apply args_iff. assert (A' : series_by_tag_args q (length l) = Ok l') by (apply args_iff; split; [auto|lia]).
  rewrite A in A'. apply ok_inj in A'. subst. lia.
Qed.
(*EX
Example c81_limit_example : let q n := B "seriesByTag(" ++ concat (repeat (B "'a=b'") n) ++ B ")" in
  query_text (q 129%nat) (repeat (B "a=b") 129) /\ (exists ts, parse_series rx_self (q 128%nat) = Ok ts /\ length ts = 128%nat).
Proof.
  cbv zeta. split; [apply args_iff with (cap := 129%nat); vm_compute; reflexivity|]. eexists. split; [vm_compute; reflexivity|reflexivity].
Qed.
XE*)
