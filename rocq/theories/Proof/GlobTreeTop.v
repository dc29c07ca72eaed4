(** The statements of Props/PTree.v. *)
From Verif Require Import Model.Tree Model.GGlob Spec.Symbols Spec.Class Spec.GlobSpec Spec.Safe Spec.RegistrySpec Spec.GlobTreeSpec Spec.EndSpec Spec.StarSpec Spec.ApartSpec Spec.TreeStarSpec.
From Verif Require Import Proof.TidyP.
From Verif Require Import Proof.Utf8P Proof.SymbolsP Proof.SortP Proof.ListP Proof.LangP Proof.ItemP Proof.DenotesP Proof.MatchP Proof.ParseP Proof.NextP Proof.GlobP Proof.GlobMatchP Proof.SafeP Proof.TotalP Proof.WellP Proof.NodeP Proof.RegistryP Proof.GTreeP Proof.ItemTop Proof.GlobTop Proof.NodeTop Proof.GGlobTop Proof.ItemEqP Proof.TreeP Proof.TreeInsP Proof.GlobTreeP Proof.TreeCountP Proof.TreeMonoP Proof.TreeEndP Proof.TreeEnd2P Proof.MinP Proof.TreePanicP Proof.TreeHangP Proof.SoundP Proof.TreeSoundP Proof.TreeStarsP Proof.TreeStars2P Proof.CheckP Proof.ApartP.
From Coq Require Import Lia ZifyBool ZifyN ZifyNat.

(** C31: any sequence of calls of Add (any texts, any indexes) does what the registry of Spec/RegistrySpec.v does, and the two
    maps of the tree hold exactly the names and the indexes of its entries. *)
Lemma c31_history_l : forall calls : list (str * Z), exists gt rs E, run_adds gt_add gt_new calls = Ok (gt, rs) /\
  history gl_canon calls rs E /\ distinct E /\
  (forall name n, lookup str_eqb name (gt_globs gt) = Some n <-> known E name n) /\
  (forall i q, lookup Z.eqb i (gt_index gt) = Some q <-> used E i q).
Proof.
  intro calls. destruct (gt_history calls) as (gt & rs & E & R & H & (D & M1 & M2) & _). exists gt, rs, E. auto.
Qed.
(*EX
Example c31_history_example : exists gt, run_adds gt_add gt_new [(B "a{c,b}", 5%Z); (B "a{b,c}", 6%Z); (B "b*", 5%Z); (B "a[", 7%Z); (B "*x", 0%Z); (B "y", (-1)%Z); ([], 8%Z)] =
  Ok (gt, [(B "a{b,c}", 5%Z, None); (B "a{b,c}", 5%Z, Some ErrGlobExist); (B "a{b,c}", 0%Z, Some ErrIndexDup); ([], 0%Z, Some (ErrNodeUnclosed (B "[")));
           (B "*x", 0%Z, None); (B "y", 0%Z, Some ErrIndexInvalid); ([], 0%Z, None)]).
Proof. eexists. vm_compute. reflexivity. Qed.
XE*)
(** C31: a call that returns an error leaves the tree as it was. *)
Lemma c31_rejected_l : forall (calls : list (str * Z)) (gt gt' : glob_tree) rs text i q n e,
  run_adds gt_add gt_new calls = Ok (gt, rs) -> gt_add gt text i = Ok (gt', (q, n, Some e)) -> gt' = gt.
Proof.
  intros calls gt gt' rs text i q n e R A. destruct (gt_history calls) as (gt0 & rs0 & E & R0 & H & T). rewrite R in R0. injection R0 as <- <-.
  destruct (gt_step E gt text i T) as (gt2 & r & new & A2 & Rg & _ & K). rewrite A in A2. injection A2 as <- <-. apply K. now inversion Rg.
Qed.
(*EX
Example c31_rejected_example : exists gt rs, run_adds gt_add gt_new [(B "a{c,b}", 5%Z)] = Ok (gt, rs) /\ gt_add gt (B "a{b,c}") 6 = Ok (gt, (B "a{b,c}", 5%Z, Some ErrGlobExist)).
Proof. do 2 eexists. split; [vm_compute; reflexivity|]. vm_compute. reflexivity. Qed.
XE*)

(** C32: AddGlob of a parsed glob is accepted exactly when Add of its text is; then both trees answer every Match alike.  A rejected
    glob leaves the tree as it was. *)
Lemma c32_same_match_l : forall (gt : glob_tree) (text : str) (i : Z) (g : glob), text <> [] -> glob_parse text = Ok g ->
  exists gt1 gt2 q1 q2 n1 n2 e1 e2,
    gt_add gt text i = Ok (gt1, (q1, n1, e1)) /\ gt_add_glob gt g i = (gt2, (q2, n2, e2)) /\
    (e1 = None <-> e2 = None) /\ (e2 <> None -> gt2 = gt) /\ (e2 = None -> n1 = i /\ n2 = i) /\
    forall f s, gt_match f gt1 s = gt_match f gt2 s.
Proof.
  intros gt text i g N P. assert (G : g_glob g = text) by now destruct (parse_shape _ _ P). unfold gt_add, gt_add_glob. rewrite P, G. replace (null text) with false by now destruct text.
  destruct (i <? 0)%Z; [do 8 eexists; repeat match goal with |- _ /\ _ => split end; try reflexivity; try easy; intuition congruence|].
  destruct (lookup str_eqb text (gt_globs gt)); [do 8 eexists; repeat match goal with |- _ /\ _ => split end; try reflexivity; try easy; intuition congruence|].
  destruct (lookup Z.eqb i (gt_index gt)), (lookup str_eqb (g_node g) (gt_globs gt)); do 8 eexists; repeat match goal with |- _ /\ _ => split end; try reflexivity; try easy; intuition congruence.
Qed.
(*EX
Example c32_same_match_example : exists g gt1 gt2, glob_parse (B "a{c,b}*") = Ok g /\ gt_add gt_new (B "a{c,b}*") 3 = Ok (gt1, (B "a{b,c}*", 3%Z, None)) /\
  gt_add_glob gt_new g 3 = (gt2, ([], 3%Z, None)) /\ gt_match 20 gt2 (B "acx") = Ok ([(B "a{b,c}*", 3%Z)], 1).
Proof. do 3 eexists. do 3 (split; [vm_compute; reflexivity|]). vm_compute. reflexivity. Qed.
XE*)
(** C32: but AddGlob returns and records an empty text instead of the canonical one, under which later globs are then refused. *)
Lemma c32_normalized_refuted_l : exists g gt, glob_parse (B "a*b") = Ok g /\ gt_add_glob gt_new g 1 = (gt, ([], 1%Z, None)) /\
  lookup Z.eqb 1%Z (gt_index gt) = Some [] /\ lookup str_eqb [] (gt_globs gt) = Some 1%Z /\
  gt_add gt (B "c*d") 1 = Ok (gt, ([], 0%Z, Some ErrIndexDup)).
Proof. do 2 eexists. split; [vm_compute; reflexivity|]. repeat match goal with |- _ /\ _ => split end; vm_compute; reflexivity. Qed.

(** C35: the number returned is the number of globs stored, for every tree and string. *)
Lemma c35_count_l : forall (f : nat) (gt : glob_tree) (s : str) (l : list term) (n : nat), gt_match f gt s = Ok (l, n) -> n = length l.
Proof. intros f gt s l n H. apply tree_match_counted in H. exact H. Qed.
(*EX
Example c35_count_example : exists gt rs, run_adds gt_add gt_new [(B "*a*", 5%Z); (B "{b*,?}a{a,}*", 6%Z)] = Ok (gt, rs) /\
  gt_match 30 gt (B "aaa") = Ok ([(B "*a*", 5%Z); (B "*a*", 5%Z); (B "*a*", 5%Z); (B "{?,b*}a{,a}*", 6%Z); (B "{?,b*}a{,a}*", 6%Z)], 5).
Proof. do 2 eexists. split; [vm_compute; reflexivity|]. vm_compute. reflexivity. Qed.
XE*)

Lemma history_inv calls gt rs E : run_adds gt_add gt_new calls = Ok (gt, rs) -> history gl_canon calls rs E -> tree_inv E gt.
Proof.
  intros R H. destruct (gt_history calls) as (gt0 & rs0 & E0 & R0 & H0 & T). rewrite R in R0. injection R0 as <- <-. destruct (history_fun _ _ _ _ H _ _ H0) as [_ ->]. exact T.
Qed.
Lemma fragment_of E s : (forall e, In e E -> tree_glob (e_text e)) -> clean s \/ (forall e, In e E -> lone_classes (e_text e)) -> exists u, in_fragment u E /\ okstr u s.
Proof.
  intros G [C|A].
  - exists true. split; [|intros _; exact C]. intros e I. destruct (G e I) as (C1 & Z & P & R). split; [|auto]. split; [auto|]. split; [auto|discriminate].
  - exists false. split; [|discriminate]. intros e I. destruct (G e I) as (C1 & Z & P & R). split; [|auto]. split; [auto|]. split; auto.
Qed.
(** C33, C34, C36: after any calls of Add whose accepted globs are of the kind that match exactly on their own, Match(s) returns (for
    every sufficiently large number of steps, with one and the same answer), and it reports exactly those accepted globs that denote s,
    are no plain text and are not hidden by a longer one.  Match counts every report. *)
Lemma c34_exact_l : forall (calls : list (str * Z)) (gt : glob_tree) rs (E : list entry) (s : str),
  run_adds gt_add gt_new calls = Ok (gt, rs) -> history gl_canon calls rs E ->
  (forall e, In e E -> tree_glob (e_text e)) -> clean s \/ (forall e, In e E -> lone_classes (e_text e)) ->
  exists f0 l, (forall f, f0 <= f -> gt_match f gt s = Ok (l, length l)) /\
    forall q i, In (q, i) l <-> exists e, In e E /\ e_node e = q /\ e_index e = i /\ ~ plain_text (e_text e) /\ ~ hidden E e /\ denotes (e_text e) (symbols s).
Proof.
  intros calls gt rs E s R H G S. pose proof (history_inv _ _ _ _ R H) as T. destruct (fragment_of E s G S) as (u & F & O).
  assert (K : okr u (gt_root gt)) by (destruct T as (_ & _ & _ & _ & _ & _ & K); apply K; exact F).
  destruct (root_ev u (gt_root gt) s K O) as (f0 & [l n] & Rp & Ev). exists f0, l.
  assert (n = length l) as -> by (apply (c35_count_l f0 gt s); apply Ev; lia).
  split; [exact Ev|]. intros q i. rewrite <- (reported_spec u E gt s q i T F). apply (Rp (q, i)).
Qed.

Lemma own_match text g s : tree_glob text -> glob_parse text = Ok g -> g_items g <> [] -> clean s \/ lone_classes text ->
  exists b, glob_match g s = Ok b /\ (b = true <-> denotes text (symbols s)).
Proof.
  intros (C & Z & P & R) H N S. destruct (okstr_of text s S) as (u & O & A). assert (T : tok u text) by (split; [auto|split; auto]).
  destruct (parse_facts u _ _ T P H) as (px & sx & mn & mx & rl & Eg & I & D). destruct (parse_run _ _ R H) as (st & Rn).
  assert (Nr : rev rl <> []) by (intro X; rewrite X in Eg; subst g; now apply N).
  assert (Ei : g_items g = rev rl) by (rewrite Eg; destruct (rev rl); easy). rewrite Ei in Rn.
  destruct (finish_match u text px sx mn mx rl s g) as (b & Hb & Q); auto.
  - refine (run_safe _ _ _ _ Rn). apply (wfi_fits u), Forall_rev, I.
  - right. apply run_sized in Rn. apply Forall_rev in Rn. now rewrite rev_involutive in Rn.
  - intros ->. now elim Nr.
  - exists b. split; auto. rewrite Q. symmetry. apply D.
Qed.
(** C33: every report belongs to an accepted glob whose own Match accepts the string. *)
Lemma c33_sound_l : forall (calls : list (str * Z)) (gt : glob_tree) rs (E : list entry) (s : str) (f : nat) (l : list term) (n : nat) (q : str) (i : Z),
  run_adds gt_add gt_new calls = Ok (gt, rs) -> history gl_canon calls rs E ->
  (forall e, In e E -> tree_glob (e_text e)) -> clean s \/ (forall e, In e E -> lone_classes (e_text e)) ->
  gt_match f gt s = Ok (l, n) -> In (q, i) l ->
  exists e g, In e E /\ e_node e = q /\ e_index e = i /\ glob_parse (e_text e) = Ok g /\ glob_match g s = Ok true.
Proof.
  intros calls gt rs E s f l n q i R H G S M I. destruct (c34_exact_l _ _ _ _ s R H G S) as (f0 & l0 & Ev & X).
  assert (Q : (l, n) = (l0, length l0)) by (eapply tree_match_fun; [exact M|exact (Ev f0 (Nat.le_refl _))]).
  injection Q as -> _. apply X in I as (e & Ie & <- & <- & NP & _ & D). pose proof (history_inv _ _ _ _ R H) as (_ & TP & _).
  destruct (TP e Ie) as (g & P & _). exists e, g. do 4 (split; auto). destruct (own_match (e_text e) g s) as (b & Hb & Q); auto.
  - intro Z. apply NP. exists g. auto.
  - destruct S; auto.
  - rewrite Hb. f_equal. now apply Q.
Qed.
(** C34: every accepted glob whose own Match accepts the string is reported, unless it is plain text or hidden. *)
Lemma c34_complete_l : forall (calls : list (str * Z)) (gt : glob_tree) rs (E : list entry) (s : str) (e : entry) (g : glob),
  run_adds gt_add gt_new calls = Ok (gt, rs) -> history gl_canon calls rs E ->
  (forall e, In e E -> tree_glob (e_text e)) -> clean s \/ (forall e, In e E -> lone_classes (e_text e)) ->
  In e E -> glob_parse (e_text e) = Ok g -> glob_match g s = Ok true -> ~ plain_text (e_text e) -> ~ hidden E e ->
  exists f0 l n, (forall f, f0 <= f -> gt_match f gt s = Ok (l, n)) /\ In (e_node e, e_index e) l.
Proof.
  intros calls gt rs E s e g R H G S Ie P M NP NH. destruct (c34_exact_l _ _ _ _ s R H G S) as (f0 & l0 & Ev & X). exists f0, l0, (length l0). split; auto.
  apply X. exists e. do 5 (split; auto). destruct (own_match (e_text e) g s) as (b & Hb & Q); auto.
  - intro Z. apply NP. exists g. auto.
  - destruct S; auto.
  - apply Q. congruence.
Qed.
(** C34: globs that end in something other than a star (and one symbol or text after it) are never hidden. *)
Lemma c34_not_hidden_l : forall (E : list entry) (e : entry) (g : glob), glob_parse (e_text e) = Ok g -> ~ open_end (g_items g) -> ~ hidden E e.
Proof. intros E e g P N (e' & g1 & g' & _ & P1 & _ & _ & _ & O & _). rewrite P in P1. injection P1 as <-. auto. Qed.
Lemma history_texts canon calls rs E : history canon calls rs E -> forall e, In e E -> In (e_text e, e_index e) calls.
Proof.
  induction 1 as [|calls rs E text i new r H IH Rg]; intros e I; [easy|]. apply in_or_app. inversion Rg; subst; try (left; now apply IH).
  apply in_app_or in I as [I|[<-|[]]]; [left; now apply IH|right; now left].
Qed.
Lemma tree_glob_plain g : forallb (fun c => (code c <? 128)%N && negb (code c =? 0)%N && negb (Ascii.eqb c "{")) g = true -> tree_glob g /\ lone_classes g.
Proof.
  intro H. rewrite forallb_forall in H.
  assert (X : forall c, In c g -> (code c < 128)%N /\ code c <> 0%N /\ c <> "{"%char).
  { intros c I. apply H in I. apply andb_true_iff in I as [I I3]. apply andb_true_iff in I as [I1 I2]. split; [lia|]. split; [lia|]. intros ->. discriminate. }
  assert (A : forall c, In c g -> (code c < 128)%N) by (intros c I; now apply X).
  assert (N : forall a body b, g <> a ++ braced body ++ b).
  { intros a body b E. assert (I : In "{"%char g) by (rewrite E; apply in_or_app; right; now left). now apply X in I. }
  split; [|now apply ascii_lone]. split; [now apply clean_ascii|]. split; [intro I; apply X in I; destruct I as (_ & I & _); now apply I|].
  split; intros a body b E; elim (N _ _ _ E).
Qed.
(*EX
From Verif Require Proof.CheckP.
Lemma example_tree_glob g : CheckP.node_glob_b g && CheckP.regular_b g = true -> tree_glob g.
Proof. intro H. apply andb_prop in H as [H R]. destruct (CheckP.node_glob_ok g H) as (C & Z & _ & P & _). split; [exact C|]. split; [exact Z|]. split; [exact P|now apply CheckP.regular_ok]. Qed.
Example c34_exact_example :
  let calls := [(B "a*", 1%Z); (B "a*[bc]", 2%Z); (B "ab", 3%Z); (B "?b", 4%Z); (B "{b,c}?", 5%Z); (B "*{b?,[ac]x}c*d", 6%Z); (B "*{b?,[ac]x}[cж]", 7%Z)] in
  exists gt rs E, run_adds gt_add gt_new calls = Ok (gt, rs) /\ history gl_canon calls rs E /\ used E 1%Z (B "a*") /\ used E 5%Z (B "{b,c}?") /\
  (forall e, In e E -> tree_glob (e_text e)) /\ gt_match 30 gt (B "ab") = Ok ([(B "a*[b-c]", 2%Z); (B "?b", 4%Z)], 2) /\ gt_match 30 gt (B "cb") = Ok ([(B "?b", 4%Z); (B "{b,c}?", 5%Z)], 2) /\
  gt_match 30 gt (B "жbbcd") = Ok ([(B "*{[ac]x,b?}c*d", 6%Z)], 1) /\ gt_match 30 gt (B "bcxж") = Ok ([(B "*{[ac]x,b?}[cж]", 7%Z)], 1).
Proof.
  set (calls := [(B "a*", 1%Z); (B "a*[bc]", 2%Z); (B "ab", 3%Z); (B "?b", 4%Z); (B "{b,c}?", 5%Z); (B "*{b?,[ac]x}c*d", 6%Z); (B "*{b?,[ac]x}[cж]", 7%Z)]). cbv zeta.
  destruct (c31_history_l calls) as (gt & rs & E & R & H & D & K & U).
  exists gt, rs, E. split; [exact R|]. split; [exact H|].
  split; [apply U; vm_compute in R; injection R as <- <-; reflexivity|]. split; [apply U; vm_compute in R; injection R as <- <-; reflexivity|]. split.
  - intros e I. apply (history_texts _ _ _ _ H) in I. repeat (destruct I as [I|I]; [injection I as <- _; apply example_tree_glob; vm_compute; reflexivity|]). destruct I.
  - vm_compute in R. injection R as <- <-. repeat match goal with |- _ /\ _ => split end; vm_compute; reflexivity.
Qed.
XE*)
(** C33, C34, C36: the same with stars inside the values of lists, up to shadowed globs: Match(s) returns, with one answer; whatever it reports
    is an accepted glob that denotes s; and it reports every accepted glob that denotes s, is no plain text and is not shadowed. *)
Lemma c34_stars_l : forall (calls : list (str * Z)) (gt : glob_tree) rs (E : list entry) (s : str),
  run_adds gt_add gt_new calls = Ok (gt, rs) -> history gl_canon calls rs E ->
  (forall e, In e E -> star_glob (e_text e)) -> clean s \/ (forall e, In e E -> lone_classes (e_text e)) ->
  exists f0 l, (forall f, f0 <= f -> gt_match f gt s = Ok (l, length l)) /\
    (forall q i, In (q, i) l -> exists e, In e E /\ e_node e = q /\ e_index e = i /\ denotes (e_text e) (symbols s)) /\
    (forall e, In e E -> ~ plain_text (e_text e) -> ~ shadowed E e -> denotes (e_text e) (symbols s) -> In (e_node e, e_index e) l).
Proof.
  intros calls gt rs E s R H G S.
  assert (F : exists u, star_fragment u E /\ okstr u s).
  { destruct S as [C|A]; [exists true|exists false]; (split; [|try discriminate; intros _; exact C]); intros e I; destruct (G e I) as (C1 & Z & P & Rg & _); (split; [|auto]); (split; [auto|]); split; auto; discriminate. }
  destruct F as (u & F & O).
  destruct (tree_returns calls gt rs E s R H) as (f0 & [l n] & Ev).
  { intros e I. now destruct (G e I) as (_ & _ & _ & _ & L). }
  { intros e g I P [X|X]; [destruct (F e I) as (T & Pl & Rg); now destruct (parse_calm_stars u _ _ T Pl Rg P)|].
    destruct (G e I) as (C1 & _). exact (text_stray _ _ (or_introl C1) P X). }
  exists f0, l. assert (n = length l) as -> by (apply (c35_count_l f0 gt s); apply Ev; lia). split; [exact Ev|]. split.
  - intros q i I. eapply (history_sound calls gt rs E f0 s l); eauto.
    + intros e J. destruct (G e J) as (C & Z & P & _). auto.
    + intros e g J P. destruct (F e J) as (T & Pl & Rg). now destruct (parse_calm_stars u _ _ T Pl Rg P).
  - intros e Ie NP NS D. eapply (history_stars u); eauto.
Qed.
(*EX
Lemma example_star_glob g : CheckP.node_glob_b g && CheckP.regular_stars_b g && last_check g = true -> star_glob g.
Proof.
  intro H. apply andb_prop in H as [H L]. apply andb_prop in H as [H R]. destruct (CheckP.node_glob_ok g H) as (C & Z & _ & P & _).
  split; [exact C|]. split; [exact Z|]. split; [exact P|]. split; [now apply CheckP.regular_stars_ok|now apply last_check_ok].
Qed.
Example c34_stars_example :
  let calls := [(B "{a*,b}c", 1%Z); (B "{a*,b?}cd", 2%Z); (B "x{?*,ж}{b*,c}", 3%Z); (B "{a*,b}[d-f]*", 4%Z); (B "ab", 5%Z)] in
  exists gt rs E, run_adds gt_add gt_new calls = Ok (gt, rs) /\ history gl_canon calls rs E /\ used E 1%Z (B "{a*,b}c") /\ used E 3%Z (B "x{*?,ж}{b*,c}") /\
  (forall e, In e E -> star_glob (e_text e)) /\ gt_match 40 gt (B "azcdc") = Ok ([(B "{a*,b}c", 1%Z); (B "{a*,b}[d-f]*", 4%Z)], 2) /\ gt_match 40 gt (B "axbcd") = Ok ([(B "{a*,b?}cd", 2%Z); (B "{a*,b}[d-f]*", 4%Z)], 2) /\
  gt_match 40 gt (B "xжb") = Ok ([(B "x{*?,ж}{b*,c}", 3%Z); (B "x{*?,ж}{b*,c}", 3%Z)], 2).
Proof.
  set (calls := [(B "{a*,b}c", 1%Z); (B "{a*,b?}cd", 2%Z); (B "x{?*,ж}{b*,c}", 3%Z); (B "{a*,b}[d-f]*", 4%Z); (B "ab", 5%Z)]). cbv zeta.
  destruct (c31_history_l calls) as (gt & rs & E & R & H & D & K & U).
  exists gt, rs, E. split; [exact R|]. split; [exact H|].
  split; [apply U; vm_compute in R; injection R as <- <-; reflexivity|]. split; [apply U; vm_compute in R; injection R as <- <-; reflexivity|]. split.
  - intros e I. apply (history_texts _ _ _ _ H) in I. repeat (destruct I as [I|I]; [injection I as <- _; apply example_star_glob; vm_compute; reflexivity|]). destruct I.
  - vm_compute in R. injection R as <- <-. repeat match goal with |- _ /\ _ => split end; vm_compute; reflexivity.
Qed.
XE*)
(** C33, C34 and what the conditions exclude.  Plain text is never reported. *)
Lemma c34_plain_refuted_l : exists gt, gt_add gt_new (B "abc") 1 = Ok (gt, (B "abc", 1%Z, None)) /\ parse_match (B "abc") (B "abc") = Ok true /\
  forall f s, gt_match f gt s = Ok ([], 0).
Proof. eexists. split; [vm_compute; reflexivity|]. split; [vm_compute; reflexivity|]. intros f s. reflexivity. Qed.
(** C34: a glob that ends with a star, or with a star and a symbol, is lost when a longer one is added. *)
Lemma c34_hidden_refuted_l : (exists gt rs, run_adds gt_add gt_new [(B "a*", 1%Z); (B "a*[bc]", 2%Z)] = Ok (gt, rs) /\
    parse_match (B "a*") (B "ax") = Ok true /\ exists f, gt_match f gt (B "ax") = Ok ([], 0)) /\
  (exists gt rs, run_adds gt_add gt_new [(B "*[ab]", 1%Z); (B "*[ab][cd]", 2%Z)] = Ok (gt, rs) /\
    parse_match (B "*[ab]") (B "xa") = Ok true /\ exists f, gt_match f gt (B "xa") = Ok ([], 0)).
Proof. split; do 2 eexists; (split; [vm_compute; reflexivity|]); (split; [vm_compute; reflexivity|]); exists 20; vm_compute; reflexivity. Qed.
(** C34: a glob may be reported several times. *)
Lemma c34_once_refuted_l : exists gt, gt_add gt_new (B "*a*") 1 = Ok (gt, (B "*a*", 1%Z, None)) /\
  gt_match 20 gt (B "aaa") = Ok ([(B "*a*", 1%Z); (B "*a*", 1%Z); (B "*a*", 1%Z)], 3).
Proof. eexists. split; [vm_compute; reflexivity|]. vm_compute. reflexivity. Qed.
(** C33: outside the fragment a tree reports globs that do not match: a list with a star among its values. *)
Lemma c33_star_value_refuted_l : (exists gt, gt_add gt_new (B "*{*?,b}c*") 1 = Ok (gt, (B "*{*?,b}c*", 1%Z, None)) /\ parse_match (B "*{*?,b}c*") (B "c") = Ok false /\
    exists f, gt_match f gt (B "c") = Ok ([(B "*{*?,b}c*", 1%Z)], 1)).
Proof. eexists. split; [vm_compute; reflexivity|]. split; [vm_compute; reflexivity|]. exists 20. vm_compute. reflexivity. Qed.
(** C36: Match of a glob with text after a star inside a list does not return: no number of steps suffices. *)
Lemma c36_hang_refuted_l : exists gt, gt_add gt_new (B "{a*b,c}") 1 = Ok (gt, (B "{a*b,c}", 1%Z, None)) /\
  parse_match (B "{a*b,c}") (B "ab") <> Fuel /\ forall f, gt_match f gt (B "ab") = Fuel.
Proof.
  eexists. split; [vm_compute; reflexivity|]. split; [vm_compute; discriminate|].
  set (T := TNode (Some (IGroup [IChain [IByte "a"; IStar 0; IStr (B "b")] 2 0; IStr (B "c")] 1 1)) false (Some (B "{a*b,c}", 1%Z)) []).
  assert (X : forall f, t_items f T (B "b") [IStar 0; IStr (B "b")] = Fuel).
  { induction f as [|f IH]; [reflexivity|].
    assert (E : t_items (S f) T (B "b") [IStar 0; IStr (B "b")] = oseq (t_star_items f T (B "b") [IStr (B "b")]) (t_items f T (B "b") [IStar 0; IStr (B "b")])) by reflexivity.
    rewrite E, IH. destruct f as [|[|[|f]]]; reflexivity. }
  intro f. destruct f as [|[|f]]; [reflexivity|reflexivity|].
  change (gt_match (S (S f)) _ (B "ab")) with (oseq (oseq (Ok out_none) (oseq (t_items f T (B "b") [IStar 0; IStr (B "b")]) (oseq (t_items (S f) T (B "ab") [IStr (B "c")]) (Ok out_none)))) (Ok out_none)).
  rewrite X. reflexivity.
Qed.
(** C36: whatever else the tree holds, with a glob p{...,u*w,...}q in it Match returns on none of the strings p u r q with r at least as
    long as w. *)
Lemma c36_never_l : forall (calls : list (str * Z)) (gt : glob_tree) rs (E : list entry) (e : entry) (p u w q r : str),
  run_adds gt_add gt_new calls = Ok (gt, rs) -> history gl_canon calls rs E -> In e E ->
  star_inside (e_text e) p u w q -> clean u -> length w <= length r -> forall f o, gt_match f gt (p ++ u ++ r ++ q) <> Ok o.
Proof. exact tree_hangs. Qed.
(*EX
Example c36_never_example : star_inside (B "x{a*b,c}y") (B "x") (B "a") (B "b") (B "y") /\ clean (B "a") /\
  (exists gt rs, run_adds gt_add gt_new [(B "z", 1%Z); (B "x{a*b,c}y", 2%Z)] = Ok (gt, rs)) /\
  (exists gl b, glob_parse (B "x{a*b,c}y") = Ok gl /\ glob_match gl (B "xa1by") = Ok b).
Proof.
  assert (L : forall s : str, forallb (fun c => negb (existsb (Ascii.eqb c) metas)) s = true -> literal_text s).
  { intros s H c I M. rewrite forallb_forall in H. specialize (H c I). assert (existsb (Ascii.eqb c) metas = true) as X by (apply existsb_exists; exists c; split; [exact M|apply Ascii.eqb_refl]). rewrite X in H. discriminate. }
  split; [|split; [apply clean_ascii; intros c I; repeat (destruct I as [<-|I]; [reflexivity|]); destruct I|split; [do 2 eexists; vm_compute; reflexivity|do 2 eexists; split; [vm_compute; reflexivity|]; vm_compute; reflexivity]]].
  exists (B "a*b,c"). repeat split; try (apply L; reflexivity).
  - cbn. intuition discriminate.
  - discriminate.
  - apply alternative_split. now left.
  - intro A. apply alternative_split in A. cbn in A. intuition discriminate.
  - exists (B "c"). split; [apply alternative_split; right; now left|discriminate].
Qed.
XE*)
(** C36: when only '*' and '?' come after a star in the values of the lists of the accepted globs, Match ends for every string (any
    bytes): from some number of steps on it has one and the same outcome, a return or a panic. *)
Lemma c36_ends_l : forall (calls : list (str * Z)) (gt : glob_tree) rs (E : list entry) (s : str),
  run_adds gt_add gt_new calls = Ok (gt, rs) -> history gl_canon calls rs E -> (forall e, In e E -> stars_last (e_text e)) ->
  exists f0 r, r <> Fuel /\ forall f, f0 <= f -> gt_match f gt s = r.
Proof. exact tree_ends. Qed.
(*EX
Example c36_ends_example : (forall g, In g [B "{a*,b}c*"; B "*{x*?,y}"] -> stars_last g) /\
  exists gt rs, run_adds gt_add gt_new [(B "{a*,b}c*", 1%Z); (B "*{x*?,y}", 2%Z)] = Ok (gt, rs) /\
  gt_match 40 gt (B "abcxdy") = Ok ([(B "{a*,b}c*", 1%Z); (B "*{x*?,y}", 2%Z); (B "*{x*?,y}", 2%Z)], 3).
Proof.
  split; [intros g [<-|[<-|[]]]; apply last_check_ok; vm_compute; reflexivity|].
  do 2 eexists. split; [vm_compute; reflexivity|]. vm_compute. reflexivity.
Qed.
XE*)
(** C79: Match in a tree of globs does not panic on any string (any bytes), however far it gets, when no choice of list values of an
    accepted glob puts a '?', or U+FFFD standing alone, directly after a star. *)
Lemma c79_no_panic_l : forall (calls : list (str * Z)) (gt : glob_tree) rs (E : list entry) (s : str),
  run_adds gt_add gt_new calls = Ok (gt, rs) -> history gl_canon calls rs E ->
  (forall e g, In e E -> glob_parse (e_text e) = Ok g -> ~ star_trap (g_items g)) -> forall f, gt_match f gt s <> Panic.
Proof. intros calls gt rs E s R H Q f X. pose proof (tree_no_panic _ _ _ _ s R H Q f) as N. rewrite X in N. exact N. Qed.
(** C79: with no text after a star inside a list value, it then returns, with one answer. *)
Lemma c79_returns_l : forall (calls : list (str * Z)) (gt : glob_tree) rs (E : list entry) (s : str),
  run_adds gt_add gt_new calls = Ok (gt, rs) -> history gl_canon calls rs E ->
  (forall e, In e E -> stars_last (e_text e)) -> (forall e g, In e E -> glob_parse (e_text e) = Ok g -> ~ star_trap (g_items g)) ->
  exists f0 o, forall f, f0 <= f -> gt_match f gt s = Ok o.
Proof. exact tree_returns. Qed.
(** C79: in particular for well-formed globs without '?' or in which no list brings a wildcard next to a star, and for globs without '*'. *)
Lemma c79_text_l : forall (calls : list (str * Z)) (gt : glob_tree) rs (E : list entry) (s : str),
  run_adds gt_add gt_new calls = Ok (gt, rs) -> history gl_canon calls rs E ->
  (forall e, In e E -> stars_last (e_text e) /\ calm_glob (e_text e)) ->
  exists f0 o, forall f, f0 <= f -> gt_match f gt s = Ok o.
Proof.
  intros calls gt rs E s R H K. apply (tree_returns calls gt rs E s R H); [intros e I; now apply K|]. intros e g I P. apply (calm_glob_quiet (e_text e)); auto. now apply K.
Qed.
(*EX
(** Globs outside the exact fragment (a star inside a list; bytes that are not UTF-8), and a string that is not UTF-8. *)
Example c79_example : exists gt rs, run_adds gt_add gt_new [(B "{a*,b}c?*", 1%Z); (byte_of 255 :: B "{x?,}?", 2%Z); (B "x*y{a?,b*}c?*", 3%Z)] = Ok (gt, rs) /\
  (forall g, In g [B "{a*,b}c?*"; byte_of 255 :: B "{x?,}?"; B "x*y{a?,b*}c?*"] -> stars_last g /\ calm_glob g) /\
  gt_match 40 gt (byte_of 255 :: B "xyz") = Ok ([(byte_of 255 :: B "{,x?}?", 2%Z)], 1).
Proof.
  do 2 eexists. split; [vm_compute; reflexivity|]. split; [|vm_compute; reflexivity].
  intros g [<-|[<-|[<-|[]]]]; (split; [apply last_check_ok; vm_compute; reflexivity|apply calm_glob_ok; vm_compute; reflexivity]).
Qed.
XE*)
(** C79 is false in general: as a Glob, a tree with a '?' value after a star panics. *)
Lemma c79_panic_refuted_l : exists gt, run_adds gt_add gt_new [(B "*{?,a}", 1%Z)] = Ok (gt, [(B "*{?,a}", 1%Z, None)]) /\
  gt_match 40 gt (B "ab") = Panic.
Proof. eexists. split; [vm_compute; reflexivity|]. vm_compute. reflexivity. Qed.
(** C79 is false in general: so does a tree with a malformed byte after a star. *)
Lemma c79_malformed_refuted_l : exists gt rs, run_adds gt_add gt_new [(B "*" ++ byte_of 255 :: B "*", 1%Z)] = Ok (gt, rs) /\
  gt_match 40 gt (B "aa" ++ [byte_of 255]) = Panic.
Proof. eexists. eexists. split; [vm_compute; reflexivity|]. vm_compute. reflexivity. Qed.
(** C36: when the accepted globs are of the kind that match exactly on their own, Match returns, for every string, with one answer. *)
Lemma c36_returns_l : forall (calls : list (str * Z)) (gt : glob_tree) rs (E : list entry) (s : str),
  run_adds gt_add gt_new calls = Ok (gt, rs) -> history gl_canon calls rs E ->
  (forall e, In e E -> tree_glob (e_text e)) -> clean s \/ (forall e, In e E -> lone_classes (e_text e)) ->
  exists f0 o, (forall f, f0 <= f -> gt_match f gt s = Ok o) /\ (forall f o', gt_match f gt s = Ok o' -> o' = o).
Proof.
  intros calls gt rs E s R H G S. destruct (c34_exact_l _ _ _ _ s R H G S) as (f0 & l & Ev & _). exists f0, (l, length l). split; auto.
  intros f o' M. eapply tree_match_fun; [exact M|exact (Ev f0 (Nat.le_refl _))].
Qed.

(** C80: after any calls of Add, whatever the tree reports for a string (any bytes) is an accepted glob that denotes the string, when
    the accepted globs have no '?', or no list that brings a wildcard next to a star. *)
Lemma c80_tree_l : forall (calls : list (str * Z)) (gt : glob_tree) rs (E : list entry),
  run_adds gt_add gt_new calls = Ok (gt, rs) -> history gl_canon calls rs E ->
  (forall e, In e E -> clean (e_text e) /\ ~ In zero (e_text e) /\ plain_singles (e_text e) /\ calm_glob (e_text e)) ->
  forall (f : nat) (s : str) (l : list term) (n : nat) (q : str) (i : Z), gt_match f gt s = Ok (l, n) -> In (q, i) l ->
  exists e, In e E /\ e_node e = q /\ e_index e = i /\ denotes (e_text e) (symbols s).
Proof.
  intros calls gt rs E R H K f s l n q i M I. apply (history_sound calls gt rs E f s l n q i R H); auto; [intros e Ie; destruct (K e Ie) as (? & ? & ? & _); auto|].
  intros e g Ie P. apply (calm_glob_steady (e_text e)); auto. now apply K.
Qed.
(*EX
Example c80_tree_calm_example : let calls := [(B "x*y{?a,b*,}c?*", 3%Z); (B "{a*,b}{c,d}{x,[0-9]*}", 4%Z); (B "{x,y?}*y*{b,c}?", 5%Z)] in
  (forall c, In c calls -> clean (fst c) /\ ~ In zero (fst c) /\ plain_singles (fst c) /\ calm_glob (fst c)) /\
  exists gt rs, run_adds gt_add gt_new calls = Ok (gt, rs) /\ gt_match 60 gt (B "x1ybcy") = Ok ([(B "x*y{,?a,b*}c*?", 3%Z); (B "{x,y?}*y*{b,c}?", 5%Z)], 2).
Proof.
  cbv zeta. split; [|do 2 eexists; split; [vm_compute; reflexivity|vm_compute; reflexivity]].
  intros c [<-|[<-|[<-|[]]]]; cbn [fst]; match goal with |- clean ?g /\ _ => destruct (node_glob_ok g ltac:(vm_compute; reflexivity)) as (C & Z & _ & P & _) end; do 3 (split; [assumption|]); apply calm_glob_ok; vm_compute; reflexivity.
Qed.
XE*)
(** C80: more generally, when no choice of list values of an accepted glob puts a star that needs a symbol directly after a star. *)
Lemma c80_tree_items_l : forall (calls : list (str * Z)) (gt : glob_tree) rs (E : list entry),
  run_adds gt_add gt_new calls = Ok (gt, rs) -> history gl_canon calls rs E ->
  (forall e, In e E -> clean (e_text e) /\ ~ In zero (e_text e) /\ plain_singles (e_text e)) ->
  (forall e g, In e E -> glob_parse (e_text e) = Ok g -> ~ In "?"%char (e_text e) \/ ~ star_more (g_items g)) ->
  forall (f : nat) (s : str) (l : list term) (n : nat) (q : str) (i : Z), gt_match f gt s = Ok (l, n) -> In (q, i) l ->
  exists e, In e E /\ e_node e = q /\ e_index e = i /\ denotes (e_text e) (symbols s).
Proof.
  intros calls gt rs E R H K Q f s l n q i M I. apply (history_sound calls gt rs E f s l n q i R H K); auto. intros e g Ie P. apply (calm_or_more (e_text e)); eauto.
Qed.
(*EX
(** Globs outside the exact fragment: stars and '?' inside lists, a list directly after a star. *)
Example c80_tree_example : let calls := [(B "{a*,b}*{c,de}{,x}[0-9]*", 3%Z); (B "{?,b*}*{c,d}*{x,}5", 4%Z); (B "a{b,?*}*5", 7%Z); (B "a[", 8%Z)] in
  let E := [mkEntry (B "{a*,b}*{c,de}{,x}[0-9]*") (B "{a*,b}*{c,de}{,x}[0-9]*") 3%Z; mkEntry (B "{?,b*}*{c,d}*{x,}5") (B "{?,b*}*{c,d}*{,x}5") 4%Z;
            mkEntry (B "a{b,?*}*5") (B "a{*?,b}*5") 7%Z] in exists gt rs,
  run_adds gt_add gt_new calls = Ok (gt, rs) /\ history gl_canon calls rs E /\
  (forall e, In e E -> clean (e_text e) /\ ~ In zero (e_text e) /\ plain_singles (e_text e)) /\
  (forall e g, In e E -> glob_parse (e_text e) = Ok g -> ~ In "?"%char (e_text e) \/ ~ star_more (g_items g)) /\
  (exists l n, gt_match 60 gt (B "abcdex5") = Ok (l, n) /\ forall e, In e E -> In (e_node e, e_index e) l) /\
  gt_match 60 gt (B "a" ++ [byte_of 255] ++ B "5") = Ok ([(B "a{*?,b}*5", 7%Z)], 1).
Proof.
  cbv zeta. destruct (gt_history [(B "{a*,b}*{c,de}{,x}[0-9]*", 3%Z); (B "{?,b*}*{c,d}*{x,}5", 4%Z); (B "a{b,?*}*5", 7%Z); (B "a[", 8%Z)]) as (gt & rs & E & R & H & _).
  exists gt, rs. split; [exact R|]. destruct (history_entries _ _ _ _ H) as [EE _]. vm_compute in R. injection R as <- <-. vm_compute in EE.
  split; [rewrite EE in H; exact H|]. split; [|split; [|split]].
  - intros e [<-|[<-|[<-|[]]]]; cbn [e_text]; match goal with |- clean ?g /\ _ => destruct (node_glob_ok g ltac:(vm_compute; reflexivity)) as (C & Z & _ & P & _) end; auto.
  - intros e g [<-|[<-|[<-|[]]]] P; cbn [e_text] in *; right; vm_compute in P; injection P as <-; apply steady_more, (steady_b_ok 30); vm_compute; reflexivity.
  - do 2 eexists. split; [vm_compute; reflexivity|]. intros e [<-|[<-|[<-|[]]]]; vm_compute; auto 8.
  - vm_compute. reflexivity.
Qed.
XE*)
(** C80 is false in general: as a Glob, a tree forgets the symbols that a star directly after a star needs. *)
Lemma c80_tree_refuted_l : exists gt, run_adds gt_add gt_new [(B "{a*,b}*??", 1%Z)] = Ok (gt, [(B "{a*,b}*??", 1%Z, None)]) /\
  gt_match 40 gt (B "aж") = Ok ([(B "{a*,b}*??", 1%Z)], 1) /\ ~ denotes (B "{a*,b}*??") (symbols (B "aж")).
Proof. eexists. split; [vm_compute; reflexivity|]. split; [vm_compute; reflexivity|]. exact (proj2 (proj1 c80_star_refuted_l)). Qed.
