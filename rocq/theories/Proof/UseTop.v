(** The statements of Props/PUse.v. *)
From Verif Require Import Model.Items Model.Tree Model.GGlob Model.GTags Model.Store Spec.Symbols Spec.Class Spec.GlobSpec Spec.PathSpec Spec.RegistrySpec Spec.GGlobSpec Spec.GlobTreeSpec Spec.TagSpec Spec.TagTreeSpec Spec.StoreSpec Spec.UseSpec.
From Verif Require Import Proof.Utf8P Proof.SymbolsP Proof.NextP Proof.DenotesP Proof.RegistryP Proof.StoreTop Proof.GGlobTop Proof.GlobTreeTop Proof.TagTreeP Proof.TagTop Proof.OrderP Proof.ExpandReadP.
From Coq Require Import Lia ZifyBool ZifyN ZifyNat Permutation.

Lemma wild_special c : is_wild c = true <-> In c special.
Proof. rewrite is_wild_iff. unfold special, metas. vm_compute. tauto. Qed.
Lemma not_wild c : is_wild c = false <-> ~ In c special.
Proof. rewrite <- wild_special. destruct (is_wild c); split; intro H; congruence. Qed.

(** C75: HasWildcard, IndexWildcard and IndexLastWildcard look for the characters [ ] { } * ? in any byte string: is there one, where
    is the first, where is the last. *)
Lemma c75_search_l : forall s : str,
  (has_wildcard s = true <-> exists c, In c s /\ In c special) /\
  (forall n, index_wildcard s = Some n <-> exists a c b, s = a ++ c :: b /\ length a = n /\ In c special /\ forall d, In d a -> ~ In d special) /\
  (forall n, index_last_wildcard s = Some n <-> exists a c b, s = a ++ c :: b /\ length a = n /\ In c special /\ forall d, In d b -> ~ In d special) /\
  (index_wildcard s = None <-> has_wildcard s = false) /\ (index_last_wildcard s = None <-> has_wildcard s = false).
Proof.
  assert (FC : forall a c b, is_wild c = true -> (forall d, In d a -> is_wild d = false) -> find_byte is_wild (a ++ c :: b) = Some (length a)).
  { induction a as [|x a IH]; intros c b W N; cbn [app find_byte length]; [now rewrite W|]. rewrite (N x) by now left. rewrite IH; auto. intros d I. apply N. now right. }
  intro s. unfold has_wildcard, index_wildcard, index_last_wildcard.
  assert (X : existsb is_wild s = true <-> exists c, In c s /\ In c special).
  { rewrite existsb_exists. split; intros (c & I & W); exists c; split; auto; now apply wild_special. }
  split; [exact X|]. split; [|split; [|split]].
  - intro n. split.
    + intro H. apply find_cut in H as (a & c & b & E & L & W & N). exists a, c, b. rewrite <- wild_special. repeat split; auto. intros d I. now apply not_wild, N.
    + intros (a & c & b & -> & <- & W & N). apply FC; [now apply wild_special|]. intros d I. now apply not_wild, N.
  - intro n. split.
    + intro H. apply GlobP.find_last_cut in H as (a & c & b & E & L & W & N). exists a, c, b. rewrite <- wild_special. repeat split; auto. intros d I. now apply not_wild, N.
    + intros (a & c & b & -> & <- & W & N). apply find_last_app; [now apply wild_special|]. intros d I. now apply not_wild, N.
  - split; intro H.
    + destruct (existsb is_wild s) eqn:Q; auto. apply existsb_exists in Q as (c & I & W). apply in_split in I as (a & b & ->).
      assert (G : forall a b, is_wild c = true -> find_byte is_wild (a ++ c :: b) <> None).
      { clear. intros a b W. induction a as [|x a IH]; cbn [app find_byte]; [now rewrite W|]. destruct (is_wild x); [easy|]. destruct (find_byte is_wild (a ++ c :: b)); easy. }
      now elim (G a b W).
    + destruct (find_byte is_wild s) eqn:Q; auto. apply find_cut in Q as (a & c & b & E & _ & W & _).
      assert (existsb is_wild s = true) by (apply existsb_exists; exists c; split; auto; subst; apply in_or_app; right; now left). congruence.
  - split; intro H.
    + destruct (existsb is_wild s) eqn:Q; auto. apply existsb_exists in Q as (c & I & W). apply in_split in I as (a & b & ->).
      assert (G : forall a b, is_wild c = true -> find_last_byte is_wild (a ++ c :: b) <> None).
      { clear. intros a b W. induction a as [|x a IH]; cbn [app find_last_byte].
        - rewrite W. destruct (find_last_byte is_wild b); easy.
        - destruct (find_last_byte is_wild (a ++ c :: b)); easy. }
      now elim (G a b W).
    + apply find_last_none. intros c I. destruct (is_wild c) eqn:W; auto. assert (existsb is_wild s = true) by (apply existsb_exists; eauto). congruence.
Qed.
(*EX
Example c75_search_example : has_wildcard (B "ab}c[d]e") = true /\ index_wildcard (B "ab}c[d]e") = Some 2 /\ index_last_wildcard (B "ab}c[d]e") = Some 6 /\ has_wildcard (B "abc") = false.
Proof. repeat split. Qed.
XE*)

Definition opens (c : ascii) : bool := existsb (Ascii.eqb c) opening.
Definition rune_opens (c : rune) : bool := ((c =? 91) || (c =? 123) || (c =? 42) || (c =? 63))%N.
Lemma opens_code c : opens c = rune_opens (code c).
Proof.
  assert (D : forall a b : ascii, Ascii.eqb a b = (code a =? code b)%N).
  { intros a b. destruct (Ascii.eqb_spec a b) as [->|N]; [now rewrite N.eqb_refl|]. symmetry. apply N.eqb_neq. intro H. now apply N, code_inj. }
  unfold opens, opening, rune_opens. cbn [B list_ascii_of_string existsb]. rewrite !D.
  change (code "[") with 91%N. change (code "{") with 123%N. change (code "*") with 42%N. change (code "?") with 63%N. lia.
Qed.
Lemma opens_meta c : ~ In c metas -> opens c = false.
Proof. rewrite meta_codes, opens_code. cbn [In]. unfold rune_opens. lia. Qed.
Lemma filter_none {A} (p : A -> bool) l : Forall (fun x => p x = false) l -> filter p l = [].
Proof. induction 1 as [|x l H _ IH]; cbn; [reflexivity|now rewrite H]. Qed.
Lemma count_range f : forall s i, length s <= f -> length (filter rune_opens (map snd (range_from f i s))) = length (filter opens s).
Proof.
  induction f as [|f IH]; intros s i L.
  - destruct s; [reflexivity|cbn in L; lia].
  - destruct s as [|c t]; [reflexivity|]. cbn [range_from].
    destruct (N.ltb_spec (code c) 128) as [A|A].
    + assert (D : decode_rune (c :: t) = (code c, 1)).
      { pose proof (decode_encode (code c) t) as D. rewrite string_byte_ascii in D by auto. cbn [app length] in D. apply D. unfold valid_rune. lia. }
      rewrite D. assert (L' : length t <= f) by (cbn in L; lia). cbn [map snd filter skipn]. rewrite opens_code.
      destruct (rune_opens (code c)); cbn [length]; now rewrite IH.
    + assert (NE : c :: t <> []) by easy. destruct (decode_high (c :: t) NE A) as [R P].
      pose proof (decode_size_pos (c :: t) NE) as PO.
      assert (RH : length (filter opens (c :: t)) = length (filter opens (skipn (snd (decode_rune (c :: t))) (c :: t)))).
      { rewrite <- (firstn_skipn (snd (decode_rune (c :: t))) (c :: t)) at 1. rewrite filter_app, (filter_none opens (firstn _ _)); [reflexivity|].
        eapply Forall_impl; [|exact P]. intros x H. now apply opens_meta. }
      rewrite RH. clear RH P. destruct (decode_rune (c :: t)) as [r n]. cbn [fst snd] in *. cbn [map snd filter].
      replace (rune_opens r) with false by (unfold rune_opens; lia).
      assert (LS : length (skipn n (c :: t)) <= f) by (rewrite skipn_length; change (length (c :: t)) with (S (length t)) in *; lia). rewrite (IH _ _ LS).
      reflexivity.
Qed.
(** C75: WildcardCount is the number of bytes [ { * ? of any byte string. *)
Lemma c75_count_l : forall s : str, wildcard_count s = length (filter (fun c => existsb (Ascii.eqb c) opening) s).
Proof. intro s. exact (count_range (length s) s 0 (le_n _)). Qed.
(*EX
Example c75_count_example : wildcard_count (B "a*{b,c}?[d]" ++ [byte_of 255; byte_of 208; "*"%char]) = 5.
Proof. vm_compute. reflexivity. Qed.
XE*)
(** C75: so a text without wildcards has none of them to count, but a text that has only closing brackets has wildcards and counts none. *)
Lemma c75_agree_l : (forall s : str, has_wildcard s = false -> wildcard_count s = 0) /\
  forall s : str, wildcard_count s = 0 -> (has_wildcard s = true <-> In "]"%char s \/ In "}"%char s).
Proof.
  split.
  - intros s H. rewrite c75_count_l, filter_none; [reflexivity|]. apply Forall_forall. intros c I. apply opens_meta. rewrite <- is_wild_iff.
    intro W. assert (has_wildcard s = true) by (apply existsb_exists; eauto). congruence.
  - intros s H. rewrite c75_count_l in H. rewrite (proj1 (c75_search_l s)). split.
    + intros (c & I & S). unfold special in S. cbn [B list_ascii_of_string In] in S.
      assert (N : opens c = false).
      { destruct (opens c) eqn:Q; auto. apply length_zero_iff_nil in H. assert (J : In c (filter opens s)) by now apply filter_In. change (filter opens s) with (filter (fun c => existsb (Ascii.eqb c) opening) s) in J. rewrite H in J. destruct J. }
      destruct S as [<-|[<-|[<-|[<-|[<-|[<-|[]]]]]]]; try discriminate N; auto.
    + intros [I|I]; eexists; (split; [exact I|]); vm_compute; tauto.
Qed.

(** Stores. *)
Lemma stored_reports l : forall acc, stored_from acc (reports l) = acc ++ l.
Proof. induction l as [|[s i] l IH]; intro acc; cbn [reports map stored_from fst snd]; [now rewrite app_nil_r|]. unfold reports in IH. rewrite IH, <- app_assoc. reflexivity. Qed.
Lemma history_nonneg canon calls rs E : history canon calls rs E -> forall e, In e E -> (0 <= e_index e)%Z.
Proof.
  induction 1 as [|calls rs E text i new r H IH R]; [easy|]. destruct new as [e0|]; auto. intros e I. apply in_app_iff in I as [I|[<-|[]]]; auto. inversion R; subst; cbn; auto.
Qed.
Lemma min_reports (E : list entry) (P : entry -> Prop) l m0 : (forall e, In e E -> (0 <= e_index e)%Z) ->
  (forall q i, In (q, i) l <-> exists e, In e E /\ e_node e = q /\ e_index e = i /\ P e) ->
  least_index E P (fold_left min_do (SInit :: reports l) m0).
Proof.
  intros N H. assert (Q : least (map snd l) (fold_left min_do (reports l) min_new)).
  { pose proof (c69_min_store_l (reports l)) as C. unfold stored in C. rewrite stored_reports in C. apply C. intros s i I. unfold reports in I.
    apply in_map_iff in I as ([q j] & E1 & I). injection E1 as <- <-. apply H in I as (e & Ie & _ & <- & _). auto. }
  cbn [fold_left min_do]. change (min_init m0) with min_new. destruct Q as [[Z ->]|[I L]].
  - left. split; auto. intros e Ie Pe. assert (J : In (e_node e, e_index e) l) by (apply H; eauto). destruct l; [easy|discriminate Z].
  - right. split.
    + apply in_map_iff in I as ([q i] & E1 & I). cbn in E1. subst i. apply H in I as (e & Ie & _ & X & Pe). eauto.
    + intros e Ie Pe. apply L. change (e_index e) with (snd (e_node e, e_index e)). apply in_map. apply H. eauto.
Qed.

(** C76: a GGlobTree with a MinStore picks the matching glob with the least index, whatever the store held before. *)
Lemma c76_gglob_l : forall (calls : list (str * Z)) (gt : gglob_tree) rs (E : list entry) (path : str) (ps : list str) (m0 : min_store),
  run_adds ggt_add ggt_new calls = Ok (gt, rs) -> history gg_canon calls rs E ->
  (forall e, In e E -> exists gs, accepted_parts (e_text e) gs /\ Forall good_glob gs) -> clean path \/ (forall e, In e E -> lone_parts (e_text e)) -> parts_of path ps ->
  exists l n, ggt_match gt path = Ok (l, n) /\
    least_index E (fun e => ~ In [] ps /\ exists gs, accepted_parts (e_text e) gs /\ Forall2 part_denotes gs ps) (fold_left min_do (SInit :: reports l) m0).
Proof.
  intros calls gt rs E path ps m0 R H G C PO. destruct (c42_denotes_l calls gt rs E path ps R H G C PO) as (l & M & _ & X). exists l, (length l). split; auto.
  apply min_reports; [eapply history_nonneg; eauto|]. intros q i. rewrite X. split.
  - intros (F & e & gs & I & A & B & D). eauto 10.
  - intros (e & I & A & B & F & gs & D). split; auto. exists e, gs. tauto.
Qed.
(*EX
From Verif Require Import Props.PGGlob Props.PTree Props.PTags.
Definition use_calls := [(B "a*.{c,b}?", 5%Z); (B "?x.*[0-9ж]*", 2%Z)].
Definition use_entries := [mkEntry (B "a*.{c,b}?") (B "a*.{b,c}?") 5%Z; mkEntry (B "?x.*[0-9ж]*") (B "?x.*[0-9ж]*") 2%Z].
Lemma use_path : clean (B "ax.b7") /\ parts_of (B "ax.b7") [B "ax"; B "b7"].
Proof.
  split; [apply clean_ascii; intros c I; cbn in I; repeat (destruct I as [<-|I]; [reflexivity|]); destruct I|].
  split; [discriminate|]. split; [discriminate|]. split; [|right; split; [reflexivity|]; intros q H; change (B "ax.b7") with (B "ax." ++ B "b7") in H; change (B "b7") with (B "b" ++ B "7") in H; rewrite app_assoc in H; apply app_inj_tail in H as [_ H]; discriminate H].
  intros p I. cbn in I. repeat (destruct I as [<-|I]); try easy; intro H; cbn in H; repeat (destruct H as [H|H]; try discriminate H); easy.
Qed.
(** The hypotheses of C76 and C77 for a tree of dotted globs hold for these calls and this path. *)
Example use_gglob : exists gt rs, run_adds ggt_add ggt_new use_calls = Ok (gt, rs) /\ history gg_canon use_calls rs use_entries /\
  (forall e, In e use_entries -> exists gs, accepted_parts (e_text e) gs /\ Forall good_glob gs) /\ length use_entries = length use_calls.
Proof. destruct c42_denotes_example as (gt & rs & R & H & G & _). exists gt, rs. auto. Qed.
Example c76_gglob_example : exists gt rs l, run_adds ggt_add ggt_new use_calls = Ok (gt, rs) /\
  ggt_match gt (B "ax.b7") = Ok (l, 2) /\ fold_left min_do (SInit :: reports l) 77%Z = 2%Z /\ fold_left min_do (SInit :: reports []) 77%Z = (-1)%Z.
Proof. do 3 eexists. split; [vm_compute; reflexivity|]. split; [vm_compute; reflexivity|]. split; vm_compute; reflexivity. Qed.
XE*)
(** C76: so does a GTagsTree on a map of tags, among the queries with conditions. *)
Lemma c76_tags_l : forall (rx : regexps) (calls : list (str * Z)) (tags : list tag) (m0 : min_store), tags <> [] ->
  (forall text i ts t, In (text, i) calls -> parse_series rx text = Ok ts -> In t ts -> plain_term t /\ evaluable rx [t] tags) ->
  exists gt rs E l n, run_adds (tg_add rx) tg_new calls = Ok (gt, rs) /\ history (tg_canon rx) calls rs E /\ tg_match_map rx gt tags = Ok (l, n) /\
    least_index E (fun e => exists ts, parse_series rx (e_text e) = Ok ts /\ ts <> [] /\ terms_match_map rx ts tags = Ok true) (fold_left min_do (SInit :: reports l) m0).
Proof.
  intros rx calls tags m0 N Q. destruct (c64_plain_l rx calls tags N Q) as (gt & rs & E & l & n & R & H & M & _ & X). exists gt, rs, E, l, n. repeat (split; [assumption|]).
  apply min_reports; [eapply history_nonneg; eauto|]. intros q i. rewrite X. split.
  - intros (e & ts & I & A & B & D). eauto 10.
  - intros (e & I & A & B & ts & D). exists e, ts. tauto.
Qed.
(*EX
Example c76_tags_example : let calls := [(B "seriesByTag('name=x*','a!=1')", 5%Z); (B "seriesByTag('name=y')", 6%Z); (B "seriesByTag('a!=1', 'name=x*')", 7%Z); (B "seriesByTag('a!=1')", 8%Z)] in
  let tags := [(B "__name__", B "xyz"); (B "b", B "2")] in
  (forall text i ts t, In (text, i) calls -> parse_series rx_self text = Ok ts -> In t ts -> plain_term t /\ evaluable rx_self [t] tags) /\
  exists gt rs l, run_adds (tg_add rx_self) tg_new calls = Ok (gt, rs) /\ tg_match_map rx_self gt tags = Ok (l, 2) /\ fold_left min_do (SInit :: reports l) 0%Z = 5%Z.
Proof.
  cbv zeta. split; [exact (proj1 c64_plain_example)|]. do 3 eexists. split; [vm_compute; reflexivity|]. split; vm_compute; reflexivity.
Qed.
XE*)
(** C76: a GlobTree with a MinStore picks the least index among the matching globs that are neither plain text nor hidden. *)
Lemma c76_glob_l : forall (calls : list (str * Z)) (gt : glob_tree) rs (E : list entry) (s : str) (m0 : min_store),
  run_adds gt_add gt_new calls = Ok (gt, rs) -> history gl_canon calls rs E ->
  (forall e, In e E -> tree_glob (e_text e)) -> clean s \/ (forall e, In e E -> lone_classes (e_text e)) ->
  exists f0 l, (forall f, f0 <= f -> gt_match f gt s = Ok (l, length l)) /\
    least_index E (fun e => ~ plain_text (e_text e) /\ ~ hidden E e /\ denotes (e_text e) (symbols s)) (fold_left min_do (SInit :: reports l) m0).
Proof.
  intros calls gt rs E s m0 R H G C. destruct (c34_exact_l calls gt rs E s R H G C) as (f0 & l & M & X). exists f0, l. split; auto.
  apply min_reports; [eapply history_nonneg; eauto|]. intros q i. rewrite X. split.
  - intros (e & I & A & B & D). eauto 10.
  - intros (e & I & A & B & D). exists e. tauto.
Qed.
(*EX
Example c76_glob_example : let calls := [(B "a*", 1%Z); (B "a*[bc]", 2%Z); (B "ab", 3%Z); (B "?b", 4%Z); (B "{b,c}?", 5%Z); (B "*{b?,[ac]x}c*d", 6%Z); (B "*{b?,[ac]x}[cж]", 7%Z)] in
  exists gt rs E l, run_adds gt_add gt_new calls = Ok (gt, rs) /\
  history gl_canon calls rs E /\ (forall e, In e E -> tree_glob (e_text e)) /\
  gt_match 30 gt (B "cb") = Ok (l, 2) /\ fold_left min_do (SInit :: reports l) 0%Z = 4%Z.
Proof.
  destruct c34_exact_example as (gt & rs & E & R & H & _ & _ & T & _ & M & _). cbv zeta. do 4 eexists. split; [exact R|]. split; [exact H|]. split; [exact T|]. split; [exact M|]. vm_compute. reflexivity.
Qed.
XE*)

(** Order of the calls. *)
Definition fits_entry (canon : str -> res str) (e : entry) : Prop := e_text e <> [] /\ (0 <= e_index e)%Z /\ canon (e_text e) = Ok (e_node e).
Definition call_of (e : entry) : str * Z := (e_text e, e_index e).
Lemma history_len canon calls rs E : history canon calls rs E -> length E <= length calls.
Proof. induction 1 as [|calls rs E text i new r H IH R]; cbn; [lia|]. rewrite app_length. cbn. destruct new; [rewrite app_length; cbn|]; lia. Qed.
Lemma history_all canon calls rs E : history canon calls rs E -> length E = length calls -> calls = map call_of E /\ Forall (fits_entry canon) E.
Proof.
  induction 1 as [|calls rs E text i new r H IH R]; intro L; [auto|]. pose proof (history_len _ _ _ _ H) as LE. rewrite app_length in L. cbn in L.
  destruct new as [e|]; [|lia]. rewrite app_length in L. cbn in L. destruct IH as [-> F]; [lia|]. inversion R; subst.
  rewrite map_app. split; [reflexivity|]. apply Forall_app. split; auto. repeat constructor; auto.
Qed.
Lemma nodup_front {A} (a b : list A) : NoDup (a ++ b) -> NoDup a.
Proof. induction a as [|x a IH]; intro H; [constructor|]. inversion_clear H as [|? ? N1 N2]. constructor; auto. intro I. apply N1, in_or_app. now left. Qed.
Lemma distinct_prefix E F : distinct (E ++ F) -> distinct E.
Proof.
  intros [N D]. split.
  - rewrite map_app in N. now apply nodup_front in N.
  - intros e e' name I I' H H'. apply (D e e' name); auto; apply in_or_app; auto.
Qed.
Lemma history_accept canon calls rs E : history canon calls rs E -> forall F, calls = map call_of F -> Forall (fits_entry canon) F -> distinct F -> E = F.
Proof.
  induction 1 as [|calls rs E text i new r H IH R]; intros F C A D.
  - symmetry in C. now apply map_eq_nil in C.
  - destruct (exists_last (l := F)) as (F0 & e & ->); [intros ->; symmetry in C; now apply app_cons_not_nil in C|].
    rewrite map_app in C. cbn [map] in C. apply app_inj_tail in C as [C Ce]. injection Ce as -> ->.
    apply Forall_app in A as [A0 Ae]. inversion_clear Ae as [|? ? (T & I & K) _]. pose proof (distinct_prefix _ _ D) as D0. rewrite (IH F0 C A0 D0) in R.
    rewrite (IH F0 C A0 D0). destruct D as [ND DD]. rewrite map_app in ND. cbn [map] in ND.
    assert (NI : ~ In (e_index e) (map e_index F0)) by (apply NoDup_remove_2 in ND; now rewrite app_nil_r in ND).
    assert (NK : forall name n, e_text e = name \/ e_node e = name -> ~ known F0 name n).
    { intros name n Hn (e' & I' & Hn' & _). assert (e' = e) by (eapply (DD e' e name); eauto; apply in_or_app; [now left|right; now left]). subst e'. apply NI. now apply in_map. }
    assert (NU : forall q, ~ used F0 (e_index e) q) by (intros q (e' & I' & X & _); apply NI; rewrite <- X; now apply in_map).
    inversion R as [X1|X1 X2|n X1 X2 X3|q X1 X2 X3 X4|er X1 X2 X3 X4 X5|q n X1 X2 X3 X4 X5 X6|q X1 X2 X3 X4 X5 X6]; subst.
    + now elim T.
    + lia.
    + now elim (NK (e_text e) n (or_introl eq_refl)).
    + now elim (NU q).
    + congruence.
    + rewrite K in X5. injection X5 as <-. now elim (NK (e_node e) n (or_intror eq_refl)).
    + rewrite K in X5. injection X5 as <-. now destruct e.
Qed.
(** As many entries as successful results. *)
Definition success (r : add_res) : bool := match r with (q, _, None) => negb (null q) | _ => false end.
Lemma history_success canon calls rs E : history canon calls rs E -> length (filter success rs) <= length E.
Proof.
  induction 1 as [|calls rs E text i new r H IH R]; [cbn; lia|]. rewrite filter_app, app_length.
  destruct R; cbn [filter success]; try (cbn; lia). rewrite (app_length E). destruct (negb (null q)); cbn [length]; lia.
Qed.
Lemma history_ok_len canon calls rs E : history canon calls rs E -> length (filter success rs) = length calls -> length E = length calls.
Proof. intros H L. pose proof (history_len _ _ _ _ H). pose proof (history_success _ _ _ _ H). lia. Qed.
Lemma map_perm_inv {A B} (f : A -> B) (l' : list B) : forall l, Permutation (map f l) l' -> exists k, l' = map f k /\ Permutation l k.
Proof. intros l H. apply Permutation_sym, Permutation_map_inv in H as (k & -> & P). exists k. auto. Qed.
Lemma distinct_perm E F : Permutation E F -> distinct E -> distinct F.
Proof.
  intros P [N D]. split.
  - eapply Permutation_NoDup; [apply Permutation_map; exact P|exact N].
  - intros e e' name I I'. apply D; eapply Permutation_in; try apply Permutation_sym; eauto.
Qed.
(** Calls that are all accepted are all accepted in any other order. *)
Lemma history_perm canon calls rs E calls' rs' E' : history canon calls rs E -> length E = length calls -> Permutation calls calls' ->
  history canon calls' rs' E' -> Permutation E E'.
Proof.
  intros H L P H'. destruct (history_all _ _ _ _ H L) as [-> A]. apply map_perm_inv in P as (F & -> & P).
  rewrite (history_accept _ _ _ _ H' F eq_refl); auto.
  - rewrite Forall_forall in *. intros e I. apply A. eapply Permutation_in; [apply Permutation_sym|]; eauto.
  - eapply distinct_perm; [exact P|]. eapply history_distinct; eauto.
Qed.
Lemma nodup_perm (l l' : list term) : NoDup l -> NoDup l' -> (forall q i, In (q, i) l <-> In (q, i) l') -> Permutation l l'.
Proof. intros N N' H. apply NoDup_Permutation; auto. intros [q i]. apply H. Qed.

(** C77: globs that a GGlobTree accepts are accepted in any other order too, and every path is reported for the same ones. *)
Lemma c77_gglob_l : forall (calls calls' : list (str * Z)) (gt : gglob_tree) rs (E : list entry) (path : str) (ps : list str),
  run_adds ggt_add ggt_new calls = Ok (gt, rs) -> history gg_canon calls rs E -> length E = length calls -> Permutation calls calls' ->
  (forall e, In e E -> exists gs, accepted_parts (e_text e) gs /\ Forall good_glob gs) -> clean path \/ (forall e, In e E -> lone_parts (e_text e)) -> parts_of path ps ->
  exists gt' rs' E' l l', run_adds ggt_add ggt_new calls' = Ok (gt', rs') /\ history gg_canon calls' rs' E' /\ Permutation E E' /\
    ggt_match gt path = Ok (l, length l) /\ ggt_match gt' path = Ok (l', length l') /\ Permutation l l'.
Proof.
  intros calls calls' gt rs E path ps R H L P G C PO. destruct (GTreeP.ggt_history calls') as (gt' & rs' & E' & R' & H' & _).
  assert (PE := history_perm _ _ _ _ _ _ _ H L P H'). assert (IE : forall e, In e E <-> In e E') by (intro e; split; apply Permutation_in; auto; now apply Permutation_sym).
  destruct (c42_denotes_l calls gt rs E path ps R H G C PO) as (l & M & N & X).
  destruct (c42_denotes_l calls' gt' rs' E' path ps R' H') as (l' & M' & N' & X'); auto; [intros e I; apply G, IE, I|destruct C as [C|C]; auto; right; intros e I; apply C, IE, I|].
  exists gt', rs', E', l, l'. repeat (split; [assumption|]). apply nodup_perm; auto. intros q i. rewrite X, X'.
  split; intros (F & e & gs & I & Y); (split; [exact F|]); exists e, gs; (split; [now apply IE|exact Y]).
Qed.
(*EX
Example c77_gglob_example : exists gt rs gt' rs' l l', run_adds ggt_add ggt_new use_calls = Ok (gt, rs) /\ history gg_canon use_calls rs use_entries /\ run_adds ggt_add ggt_new (rev use_calls) = Ok (gt', rs') /\
  ggt_match gt (B "ax.b7") = Ok (l, 2) /\ ggt_match gt' (B "ax.b7") = Ok (l', 2) /\ l <> l' /\ Permutation l l'.
Proof.
  destruct use_gglob as (gt & rs & R & H & G & L). destruct use_path as [C PO].
  destruct (c77_gglob_l use_calls (rev use_calls) gt rs use_entries _ _ R H L (Permutation_rev _) G (or_introl C) PO) as (gt' & rs' & E' & l & l' & R' & _ & _ & M & M' & P).
  exists gt, rs, gt', rs', l, l'. vm_compute in R, R'. injection R as <- <-. injection R' as <- <-.
  vm_compute in M, M'. injection M as <-. injection M' as <-. split; [vm_compute; reflexivity|]. split; [exact H|]. split; [vm_compute; reflexivity|].
  split; [vm_compute; reflexivity|]. split; [vm_compute; reflexivity|]. split; [discriminate|exact P].
Qed.
XE*)
(** C77: the same for a GTagsTree. *)
Lemma c77_tags_l : forall (rx : regexps) (calls calls' : list (str * Z)) (gt : gtags_tree) rs (E : list entry) (tags : list tag), tags <> [] ->
  (forall text i ts t, In (text, i) calls -> parse_series rx text = Ok ts -> In t ts -> plain_term t /\ evaluable rx [t] tags) ->
  run_adds (tg_add rx) tg_new calls = Ok (gt, rs) -> history (tg_canon rx) calls rs E -> length E = length calls -> Permutation calls calls' ->
  exists gt' rs' E' l l' n n', run_adds (tg_add rx) tg_new calls' = Ok (gt', rs') /\ history (tg_canon rx) calls' rs' E' /\ Permutation E E' /\
    tg_match_map rx gt tags = Ok (l, n) /\ tg_match_map rx gt' tags = Ok (l', n') /\ Permutation l l'.
Proof.
  intros rx calls calls' gt rs E tags N Q R H L P.
  destruct (c64_plain_l rx calls tags N Q) as (gt0 & rs0 & E0 & l & n & R0 & H0 & M & ND & X). rewrite R in R0. injection R0 as <- <-. destruct (history_fun _ _ _ _ H _ _ H0) as [_ <-].
  destruct (c64_plain_l rx calls' tags N) as (gt' & rs' & E' & l' & n' & R' & H' & M' & ND' & X').
  { intros text i ts t I. apply (Q text i). eapply Permutation_in; [apply Permutation_sym|]; eauto. }
  assert (PE := history_perm _ _ _ _ _ _ _ H L P H'). assert (IE : forall e, In e E <-> In e E') by (intro e; split; apply Permutation_in; auto; now apply Permutation_sym).
  exists gt', rs', E', l, l', n, n'. repeat (split; [assumption|]). apply nodup_perm; try (eapply NoDup_map_inv; eassumption). intros q i. rewrite X, X'.
  split; intros (e & ts & I & Y); exists e, ts; (split; [now apply IE|exact Y]).
Qed.
(*EX
Example c77_tags_example : let calls := [(B "seriesByTag('name=x*','a!=1')", 5%Z); (B "seriesByTag('name=y')", 6%Z); (B "seriesByTag('a!=1')", 8%Z)] in
  let tags := [(B "__name__", B "xyz"); (B "b", B "2")] in
  (forall text i ts t, In (text, i) calls -> parse_series rx_self text = Ok ts -> In t ts -> plain_term t /\ evaluable rx_self [t] tags) /\
  exists gt rs E, run_adds (tg_add rx_self) tg_new calls = Ok (gt, rs) /\ history (tg_canon rx_self) calls rs E /\ length E = length calls.
Proof.
  cbv zeta. assert (Q := proj1 c64_plain_example). cbv zeta in Q. split.
  - intros text i ts t I. apply (Q text i). cbn [In] in *. tauto.
  - destruct (c68_add rx_self [(B "seriesByTag('name=x*','a!=1')", 5%Z); (B "seriesByTag('name=y')", 6%Z); (B "seriesByTag('a!=1')", 8%Z)]) as (gt & rs & E & R & H & _).
    { intros [text i] I ts t P It. eapply (Q text i); eauto. cbn [In] in *. tauto. }
    exists gt, rs, E. split; [exact R|]. split; [exact H|]. clear Q. vm_compute in R. injection R as <- <-. exact (history_ok_len _ _ _ _ H eq_refl).
Qed.
XE*)
(** C77: and for a GlobTree (which may report a glob several times, so its reports agree as sets). *)
Lemma c77_glob_l : forall (calls calls' : list (str * Z)) (gt : glob_tree) rs (E : list entry) (s : str),
  run_adds gt_add gt_new calls = Ok (gt, rs) -> history gl_canon calls rs E -> length E = length calls -> Permutation calls calls' ->
  (forall e, In e E -> tree_glob (e_text e)) -> clean s \/ (forall e, In e E -> lone_classes (e_text e)) ->
  exists gt' rs' E' f0 l l', run_adds gt_add gt_new calls' = Ok (gt', rs') /\ history gl_canon calls' rs' E' /\ Permutation E E' /\
    (forall f, f0 <= f -> gt_match f gt s = Ok (l, length l) /\ gt_match f gt' s = Ok (l', length l')) /\ forall q i, In (q, i) l <-> In (q, i) l'.
Proof.
  intros calls calls' gt rs E s R H L P G C. destruct (GlobTreeP.gt_history calls') as (gt' & rs' & E' & R' & H' & _).
  assert (PE := history_perm _ _ _ _ _ _ _ H L P H'). assert (IE : forall e, In e E <-> In e E') by (intro e; split; apply Permutation_in; auto; now apply Permutation_sym).
  destruct (c34_exact_l calls gt rs E s R H G C) as (f1 & l & M & X).
  destruct (c34_exact_l calls' gt' rs' E' s R' H') as (f2 & l' & M' & X'); [intros e I; apply G, IE, I|destruct C as [C|C]; [now left|right; intros e I; apply C, IE, I]|].
  assert (HH : forall e, hidden E e <-> hidden E' e).
  { intro e. split; intros (e' & g & g' & I & Y); exists e', g, g'; (split; [now apply IE|exact Y]). }
  exists gt', rs', E', (f1 + f2), l, l'. repeat (split; [assumption|]). split; [intros f Lf; split; [apply M|apply M']; lia|].
  intros q i. rewrite X, X'. split; intros (e & I & A & B & D & F & Y); exists e; rewrite ?HH in *; (split; [now apply IE|]); rewrite <- ?HH in *; auto.
Qed.
(*EX
Example c77_glob_example : exists gt rs gt' rs' E, run_adds gt_add gt_new [(B "a*", 5%Z); (B "*c", 3%Z)] = Ok (gt, rs) /\ history gl_canon [(B "a*", 5%Z); (B "*c", 3%Z)] rs E /\
  length E = 2 /\ (forall e, In e E -> tree_glob (e_text e)) /\ run_adds gt_add gt_new [(B "*c", 3%Z); (B "a*", 5%Z)] = Ok (gt', rs') /\
  gt_match 50 gt (B "abc") = Ok ([(B "a*", 5%Z); (B "*c", 3%Z)], 2) /\ gt_match 50 gt' (B "abc") = Ok ([(B "*c", 3%Z); (B "a*", 5%Z)], 2).
Proof.
  destruct (c31_history [(B "a*", 5%Z); (B "*c", 3%Z)]) as (gt & rs & E & R & H & _).
  exists gt, rs. do 2 eexists. exists E. split; [exact R|]. split; [exact H|]. split; [vm_compute in R; injection R as <- <-; exact (history_ok_len _ _ _ _ H eq_refl)|].
  split; [|split; [vm_compute; reflexivity|vm_compute in R; injection R as <- <-; split; vm_compute; reflexivity]].
  intros e I. apply (history_texts _ _ _ _ H) in I. repeat (destruct I as [I|I]; [injection I as <- _; apply tree_glob_plain; reflexivity|]). destruct I.
Qed.
XE*)

Lemma history_app canon calls rs E : history canon calls rs E -> forall a b, calls = a ++ b -> exists rs1 E1 F, history canon a rs1 E1 /\ E = E1 ++ F.
Proof.
  induction 1 as [|calls rs E text i new r H IH R]; intros a b Q.
  - symmetry in Q. apply app_eq_nil in Q as [-> ->]. exists [], [], []. split; [constructor|reflexivity].
  - destruct b as [|x b] using rev_ind.
    + rewrite app_nil_r in Q. subst a. do 2 eexists. exists []. rewrite app_nil_r. split; [|reflexivity]. eapply h_snoc; eauto.
    + rewrite app_assoc in Q. apply app_inj_tail in Q as [Q _]. destruct (IH a b Q) as (rs1 & E1 & F & H1 & ->). exists rs1, E1.
      destruct new as [e|]; [exists (F ++ [e])|exists F]; split; auto. now rewrite app_assoc.
Qed.
Lemma history_prefix canon a b rs E rs' E' : history canon a rs E -> history canon (a ++ b) rs' E' -> exists F, E' = E ++ F.
Proof.
  intros H H'. destruct (history_app _ _ _ _ H' a b eq_refl) as (rs1 & E1 & F & H1 & ->). destruct (history_fun _ _ _ _ H _ _ H1) as [_ <-]. eauto.
Qed.
(** In a list of distinct entries, text and index name the entry. *)
Lemma same_entry E e e' : distinct E -> In e E -> In e' E -> e_index e = e_index e' -> e = e'.
Proof.
  intros [N _] I I' X. induction E as [|x E IH]; [easy|]. inversion_clear N as [|? ? N1 N2]. destruct I as [->|I], I' as [->|I']; auto.
  - elim N1. rewrite X. now apply in_map.
  - elim N1. rewrite <- X. now apply in_map.
Qed.
Lemma init_reports l (a0 : all_store) : fold_left all_do (SInit :: reports l) a0 = mkAll (fold_left min_do (SInit :: reports l) (as_min a0)) (map snd l) (map fst l).
Proof.
  rewrite all_parts. cbn [fold_left index_do string_do]. rewrite index_init_nil, string_init_nil. destruct (c70_collect_l (reports l)) as [A B]. unfold stored in A, B. rewrite stored_reports in A, B.
  unfold index_new in A. unfold string_new in B. now rewrite A, B.
Qed.
Lemma combine_pairs (l : list term) : combine (map fst l) (map snd l) = l.
Proof. induction l as [|[q i] l IH]; cbn; [reflexivity|now rewrite IH]. Qed.
Lemma all_reports (E : list entry) (P : entry -> Prop) l a0 : (forall e, In e E -> (0 <= e_index e)%Z) ->
  (forall q i, In (q, i) l <-> exists e, In e E /\ e_node e = q /\ e_index e = i /\ P e) ->
  collected E P (fold_left all_do (SInit :: reports l) a0) /\ as_idx (fold_left all_do (SInit :: reports l) a0) = map snd l.
Proof.
  intros N H. rewrite init_reports. split; [|reflexivity]. split; [now apply min_reports|]. cbn [as_str as_idx]. split; [now rewrite !map_length|]. now rewrite combine_pairs.
Qed.
Lemma index_nodup (E : list entry) (l : list term) : distinct E -> (forall q i, In (q, i) l -> exists e, In e E /\ e_node e = q /\ e_index e = i) -> NoDup l -> NoDup (map snd l).
Proof.
  intros D H N. induction N as [|[q i] l X N IH]; [constructor|]. cbn [map snd]. constructor; [|apply IH; intros q' i' I; apply H; now right].
  intro J. apply in_map_iff in J as ([q' i'] & Z & J). cbn in Z. subst i'. apply X.
  destruct (H q i (or_introl eq_refl)) as (e & Ie & <- & Z). destruct (H q' i (or_intror J)) as (e' & Ie' & <- & Z').
  rewrite (same_entry E e e') by congruence. exact J.
Qed.
(** C76: with an AllStore a GGlobTree collects the canonical text and the index of every matching glob, each once, and the least index. *)
Lemma c76_all_gglob_l : forall (calls : list (str * Z)) (gt : gglob_tree) rs (E : list entry) (path : str) (ps : list str) (a0 : all_store),
  run_adds ggt_add ggt_new calls = Ok (gt, rs) -> history gg_canon calls rs E ->
  (forall e, In e E -> exists gs, accepted_parts (e_text e) gs /\ Forall good_glob gs) -> clean path \/ (forall e, In e E -> lone_parts (e_text e)) -> parts_of path ps ->
  exists l n, ggt_match gt path = Ok (l, n) /\ NoDup (as_idx (fold_left all_do (SInit :: reports l) a0)) /\
    collected E (fun e => ~ In [] ps /\ exists gs, accepted_parts (e_text e) gs /\ Forall2 part_denotes gs ps) (fold_left all_do (SInit :: reports l) a0).
Proof.
  intros calls gt rs E path ps a0 R H G C PO. destruct (c42_denotes_l calls gt rs E path ps R H G C PO) as (l & M & N & X). exists l, (length l). split; [exact M|].
  destruct (all_reports E (fun e => ~ In [] ps /\ exists gs, accepted_parts (e_text e) gs /\ Forall2 part_denotes gs ps) l a0) as [A B].
  - eapply history_nonneg; eauto.
  - intros q i. rewrite X. split; [intros (F & e & gs & I & Y & Z & D); eauto 10|]. intros (e & I & Y & Z & F & gs & D). split; auto. exists e, gs. tauto.
  - split; [|exact A]. rewrite B. apply (index_nodup E); [eapply history_distinct; eauto| |exact N]. intros q i I. apply X in I as (_ & e & gs & I & Y & Z & _). eauto.
Qed.
(*EX
Example c76_all_gglob_example : exists gt rs l, run_adds ggt_add ggt_new use_calls = Ok (gt, rs) /\ history gg_canon use_calls rs use_entries /\
  (forall e, In e use_entries -> exists gs, accepted_parts (e_text e) gs /\ Forall good_glob gs) /\
  ggt_match gt (B "ax.b7") = Ok (l, 2) /\ fold_left all_do (SInit :: reports l) (mkAll 0%Z [9; 9]%Z [B "old"]) = mkAll 2%Z [5; 2]%Z [B "a*.{b,c}?"; B "?x.*[0-9ж]*"].
Proof.
  destruct use_gglob as (gt & rs & R & H & G & _). exists gt, rs. eexists. split; [exact R|]. split; [exact H|]. split; [exact G|].
  clear H G. vm_compute in R. injection R as <- <-. split; vm_compute; reflexivity.
Qed.
XE*)
(** C76: so does a GTagsTree on a map of tags. *)
Lemma c76_all_tags_l : forall (rx : regexps) (calls : list (str * Z)) (tags : list tag) (a0 : all_store), tags <> [] ->
  (forall text i ts t, In (text, i) calls -> parse_series rx text = Ok ts -> In t ts -> plain_term t /\ evaluable rx [t] tags) ->
  exists gt rs E l n, run_adds (tg_add rx) tg_new calls = Ok (gt, rs) /\ history (tg_canon rx) calls rs E /\ tg_match_map rx gt tags = Ok (l, n) /\
    NoDup (as_idx (fold_left all_do (SInit :: reports l) a0)) /\
    collected E (fun e => exists ts, parse_series rx (e_text e) = Ok ts /\ ts <> [] /\ terms_match_map rx ts tags = Ok true) (fold_left all_do (SInit :: reports l) a0).
Proof.
  intros rx calls tags a0 N Q. destruct (c64_plain_l rx calls tags N Q) as (gt & rs & E & l & n & R & H & M & ND & X). exists gt, rs, E, l, n. repeat (split; [assumption|]).
  destruct (all_reports E (fun e => exists ts, parse_series rx (e_text e) = Ok ts /\ ts <> [] /\ terms_match_map rx ts tags = Ok true) l a0) as [A B].
  - eapply history_nonneg; eauto.
  - intros q i. rewrite X. split; [intros (e & ts & I & Y & Z & D); eauto 10|]. intros (e & I & Y & Z & ts & D). exists e, ts. tauto.
  - split; [|exact A]. rewrite B. apply (index_nodup E); [eapply history_distinct; eauto| |eapply NoDup_map_inv; exact ND]. intros q i I. apply X in I as (e & ts & I & Y & Z & _). eauto.
Qed.
(*EX
Example c76_all_tags_example : let calls := [(B "seriesByTag('name=x*','a!=1')", 5%Z); (B "seriesByTag('name=y')", 6%Z); (B "seriesByTag('a!=1')", 8%Z)] in
  let tags := [(B "__name__", B "xyz"); (B "b", B "2")] in
  (forall text i ts t, In (text, i) calls -> parse_series rx_self text = Ok ts -> In t ts -> plain_term t /\ evaluable rx_self [t] tags) /\
  exists gt rs l n, run_adds (tg_add rx_self) tg_new calls = Ok (gt, rs) /\ tg_match_map rx_self gt tags = Ok (l, n) /\
    fold_left all_do (SInit :: reports l) all_new = mkAll 5%Z [8; 5]%Z [B "seriesByTag('a!=1')"; B "seriesByTag('__name__=x*','a!=1')"].
Proof.
  cbv zeta. assert (Q := proj1 c64_plain_example). cbv zeta in Q. split.
  - intros text i ts t I. apply (Q text i). cbn [In] in *. tauto.
  - do 4 eexists. split; [vm_compute; reflexivity|]. split; vm_compute; reflexivity.
Qed.
XE*)
(** C76: and a GlobTree, among the globs that are neither plain text nor hidden; there a glob may be collected several times. *)
Lemma c76_all_glob_l : forall (calls : list (str * Z)) (gt : glob_tree) rs (E : list entry) (s : str) (a0 : all_store),
  run_adds gt_add gt_new calls = Ok (gt, rs) -> history gl_canon calls rs E ->
  (forall e, In e E -> tree_glob (e_text e)) -> clean s \/ (forall e, In e E -> lone_classes (e_text e)) ->
  exists f0 l, (forall f, f0 <= f -> gt_match f gt s = Ok (l, length l)) /\
    collected E (fun e => ~ plain_text (e_text e) /\ ~ hidden E e /\ denotes (e_text e) (symbols s)) (fold_left all_do (SInit :: reports l) a0).
Proof.
  intros calls gt rs E s a0 R H G C. destruct (c34_exact_l calls gt rs E s R H G C) as (f0 & l & M & X). exists f0, l. split; auto.
  apply all_reports; [eapply history_nonneg; eauto|]. intros q i. rewrite X. split.
  - intros (e & I & A & B & D). eauto 10.
  - intros (e & I & A & B & D). exists e. tauto.
Qed.
(*EX
Example c76_all_glob_example : let calls := [(B "a*", 1%Z); (B "a*[bc]", 2%Z); (B "ab", 3%Z); (B "?b", 4%Z); (B "{b,c}?", 5%Z); (B "*{b?,[ac]x}c*d", 6%Z); (B "*{b?,[ac]x}[cж]", 7%Z)] in
  exists gt rs E l, run_adds gt_add gt_new calls = Ok (gt, rs) /\
  history gl_canon calls rs E /\ (forall e, In e E -> tree_glob (e_text e)) /\
  gt_match 30 gt (B "cb") = Ok (l, 2) /\ as_idx (fold_left all_do (SInit :: reports l) all_new) = [4; 5]%Z /\ as_str (fold_left all_do (SInit :: reports l) all_new) = [B "?b"; B "{b,c}?"].
Proof.
  destruct c34_exact_example as (gt & rs & E & R & H & _ & _ & T & _ & M & _). cbv zeta. do 4 eexists. split; [exact R|]. split; [exact H|]. split; [exact T|]. split; [exact M|]. split; vm_compute; reflexivity.
Qed.
XE*)
(** C77: adding more globs to a GGlobTree never changes whether an earlier one is reported. *)
Lemma c77_gglob_later_l : forall (calls more : list (str * Z)) (gt gt' : gglob_tree) rs rs' (E E' : list entry) (path : str) (ps : list str),
  run_adds ggt_add ggt_new calls = Ok (gt, rs) -> history gg_canon calls rs E ->
  run_adds ggt_add ggt_new (calls ++ more) = Ok (gt', rs') -> history gg_canon (calls ++ more) rs' E' ->
  (forall e, In e E' -> exists gs, accepted_parts (e_text e) gs /\ Forall good_glob gs) -> clean path \/ (forall e, In e E' -> lone_parts (e_text e)) -> parts_of path ps ->
  exists l l', ggt_match gt path = Ok (l, length l) /\ ggt_match gt' path = Ok (l', length l') /\
    forall e, In e E -> In e E' /\ (In (e_node e, e_index e) l <-> In (e_node e, e_index e) l').
Proof.
  intros calls more gt gt' rs rs' E E' path ps R H R' H' G C PO. destruct (history_prefix _ _ _ _ _ _ _ H H') as (F & ->).
  destruct (c42_denotes_l _ gt' rs' _ path ps R' H' G C PO) as (l' & M' & _ & X').
  destruct (c42_denotes_l _ gt rs E path ps R H) as (l & M & _ & X); auto; [intros e I; apply G, in_or_app; now left|destruct C as [C|C]; auto; right; intros e I; apply C, in_or_app; now left|].
  exists l, l'. repeat (split; [assumption|]). intros e Ie. split; [apply in_or_app; now left|]. rewrite X, X'. split; intros (Fp & e' & gs & I & Y & Z & W).
  - split; auto. exists e', gs. split; [apply in_or_app; now left|auto].
  - split; auto. exists e', gs. split; auto. assert (e' = e); [|now subst].
    eapply same_entry; [eapply history_distinct; exact H'|exact I|apply in_or_app; now left|exact Z].
Qed.
(*EX
Example c77_gglob_later_example : exists gt rs gt' rs', run_adds ggt_add ggt_new (firstn 1 use_calls) = Ok (gt, rs) /\ run_adds ggt_add ggt_new (firstn 1 use_calls ++ skipn 1 use_calls) = Ok (gt', rs') /\
  history gg_canon (firstn 1 use_calls ++ skipn 1 use_calls) rs' use_entries /\ (forall e, In e use_entries -> exists gs, accepted_parts (e_text e) gs /\ Forall good_glob gs) /\
  ggt_match gt (B "ax.b7") = Ok ([(B "a*.{b,c}?", 5%Z)], 1) /\ ggt_match gt' (B "ax.b7") = Ok ([(B "a*.{b,c}?", 5%Z); (B "?x.*[0-9ж]*", 2%Z)], 2).
Proof.
  destruct use_gglob as (gt' & rs' & R & H & G & _). do 2 eexists. exists gt', rs'. split; [vm_compute; reflexivity|]. split; [exact R|]. split; [exact H|]. split; [exact G|].
  split; [vm_compute; reflexivity|]. vm_compute in R. injection R as <- <-. vm_compute. reflexivity.
Qed.
XE*)
(** C77: nor does adding more queries to a GTagsTree. *)
Lemma c77_tags_later_l : forall (rx : regexps) (calls more : list (str * Z)) (tags : list tag), tags <> [] ->
  (forall text i ts t, In (text, i) (calls ++ more) -> parse_series rx text = Ok ts -> In t ts -> plain_term t /\ evaluable rx [t] tags) ->
  exists gt rs E l n gt' rs' E' l' n', run_adds (tg_add rx) tg_new calls = Ok (gt, rs) /\ history (tg_canon rx) calls rs E /\
    run_adds (tg_add rx) tg_new (calls ++ more) = Ok (gt', rs') /\ history (tg_canon rx) (calls ++ more) rs' E' /\
    tg_match_map rx gt tags = Ok (l, n) /\ tg_match_map rx gt' tags = Ok (l', n') /\
    forall e, In e E -> In e E' /\ (In (e_node e, e_index e) l <-> In (e_node e, e_index e) l').
Proof.
  intros rx calls more tags N Q.
  destruct (c64_plain_l rx (calls ++ more) tags N Q) as (gt' & rs' & E' & l' & n' & R' & H' & M' & _ & X').
  destruct (c64_plain_l rx calls tags N) as (gt & rs & E & l & n & R & H & M & _ & X).
  { intros text i ts t I. apply (Q text i), in_or_app. now left. }
  exists gt, rs, E, l, n, gt', rs', E', l', n'. repeat (split; [assumption|]). destruct (history_prefix _ _ _ _ _ _ _ H H') as (F & ->).
  intros e Ie. split; [apply in_or_app; now left|]. rewrite X, X'. split; intros (e' & ts & I & Y & Z & W).
  - exists e', ts. split; [apply in_or_app; now left|auto].
  - exists e', ts. split; auto. assert (e' = e); [|now subst].
    eapply same_entry; [eapply history_distinct; exact H'|exact I|apply in_or_app; now left|exact Z].
Qed.
(** C77: a GlobTree can stop reporting a glob when another is added. *)
Lemma c77_glob_later_refuted_l : exists gt rs gt' rs', run_adds gt_add gt_new [(B "a*", 1%Z)] = Ok (gt, rs) /\ run_adds gt_add gt_new ([(B "a*", 1%Z)] ++ [(B "a*[bc]", 2%Z)]) = Ok (gt', rs') /\
  gt_match 20 gt (B "ax") = Ok ([(B "a*", 1%Z)], 1) /\ gt_match 20 gt' (B "ax") = Ok ([], 0).
Proof. do 4 eexists. split; [vm_compute; reflexivity|]. split; [vm_compute; reflexivity|]. split; vm_compute; reflexivity. Qed.
