(** Matching does not panic unless a '?' directly follows a star. *)
From Verif Require Import Model.Glob Spec.Class Spec.Safe Spec.GlobSpec.
From Verif Require Import Proof.Utf8P Proof.LangP Proof.SortP Proof.ItemP Proof.ListP Proof.DenotesP Proof.MatchP Proof.ParseP Proof.NextP Proof.SafeP.
From Coq Require Import Lia ZifyBool ZifyN ZifyNat.

Inductive quiet : bool -> list item -> Prop :=
| q_nil p : quiet p []
| q_lit p it R : literal_item it -> (p = true -> it <> IRune RuneError) -> quiet false R -> quiet p (it :: R)
| q_any n R : quiet false R -> quiet false (IAny n :: R)
| q_star p k R : quiet true R -> quiet p (IStar k :: R)
| q_list p l R : quiet false R -> (sl_min l = 0%Z -> quiet p R) -> quiet p (IList l :: R)
| q_group p vals mn mx R : (forall v, In v vals -> quiet p (val_items v ++ R)) -> (mn = 0%Z -> quiet p R) -> quiet p (IGroup vals mn mx :: R).
Lemma quiet_mono p F : quiet p F -> quiet false F.
Proof.
  induction 1 as [p|p it R L St Q IH|n R Q IH|p k R Q IH|p l R Q IH Q2 IH2|p vals mn mx R Q IH Q2 IH2].
  - constructor.
  - now apply q_lit.
  - now apply q_any.
  - now apply q_star.
  - now apply q_list.
  - apply q_group; auto.
Qed.
(** A literal other than U+FFFD is found inside the string. *)
Lemma index_of_room s t i : index_of s t = Some i -> length t <= length (skipn i s).
Proof. intro H. apply index_of_some in H as (P & _). apply has_prefix_iff in P as (r & ->). rewrite app_length. lia. Qed.
Lemma rr_index_u_room rs : forall f i s j c n, rr_index_u f rs i s = Some (j, c, n) -> i <= j /\ n <= length (skipn (j - i) s).
Proof.
  induction f as [|f IH]; intros i s j c n H; [discriminate|]. cbn [rr_index_u] in H. destruct s as [|b t]; [discriminate|].
  destruct (code b <? RuneSelf)%N.
  - destruct (as_contains (rr_ascii rs) b).
    + injection H as <- <- <-. split; auto. rewrite Nat.sub_diag. cbn. lia.
    + apply IH in H as [L R]. split; [lia|]. replace (j - i) with (S (j - S i)) by lia. exact R.
  - pose proof (decode_size_le (b :: t)) as D. destruct (decode_rune (b :: t)) as [r k]. cbn [snd] in D. destruct (r =? RuneError)%N; [discriminate|].
    destruct (contains_unicode rs r).
    + injection H as <- <- <-. split; auto. rewrite Nat.sub_diag. exact D.
    + apply IH in H as [L R]. split; [lia|]. rewrite skipn_length in *. rewrite skipn_length in R. lia.
Qed.
Lemma find_byte_room p s i : find_byte p s = Some i -> i < length s.
Proof. revert i. induction s as [|c s IH]; intro i; [discriminate|]. cbn [find_byte length]. destruct (p c); [intros [= <-]; lia|]. destruct (find_byte p s) as [k|]; [|discriminate]. intros [= <-]. specialize (IH k eq_refl). lia. Qed.
Lemma find_room it s off n fl : literal_item it -> it <> IRune RuneError -> item_find it s = (Some off, Some n, fl) -> n <= length (skipn off s).
Proof.
  intros L N H. destruct it as [t|b|r| | |rs| | |]; try easy; cbn [item_find] in H.
  - injection H as H <- _. now apply index_of_room.
  - injection H as H <- _. rewrite index_byte_of in H. now apply index_of_room in H.
  - injection H as H <- _. unfold index_rune in H. destruct (N.ltb_spec r 128) as [Lr|Lr].
    + rewrite index_byte_of in H. apply index_of_room in H. cbn [length] in H. unfold rune_len. replace (r <? 128)%N with true by lia. cbn. lia.
    + destruct (N.eqb_spec r RuneError) as [->|_]; [easy|]. destruct (valid_rune r) eqn:V; [|discriminate]. cbn [negb] in H. apply index_of_room in H.
      pose proof (encode_len_valid r V). lia.
  - destruct (rr_index rs s) as [[[i c] k]|] eqn:E; [|discriminate]. injection H as <- <- _. unfold rr_index in E. destruct (null (rr_unicode rs)).
    + destruct (as_index (rr_ascii rs) s) as [x|] eqn:Ex; [|discriminate]. injection E as <- _ <-. apply find_byte_room in Ex. rewrite skipn_length. lia.
    + apply rr_index_u_room in E as [_ E]. now rewrite Nat.sub_0_r in E.
Qed.
(** The replacement symbol as an item. *)
Fixpoint stray (it : item) : bool :=
  match it with IRune r => (r =? RuneError)%N | IGroup vals _ _ => existsb stray vals | IChain its _ _ => existsb stray its | _ => false end.
Definition tidy (it : item) : Prop := stray it = false.
Lemma existsb_tidy l : existsb stray l = false -> Forall tidy l.
Proof. induction l as [|x l IH]; [constructor|]. cbn [existsb]. intro H. apply orb_false_iff in H as [H1 H2]. constructor; auto. Qed.
Lemma tidy_existsb l : Forall tidy l -> existsb stray l = false.
Proof. induction 1 as [|x l H F IH]; auto. cbn [existsb]. now rewrite H, IH. Qed.
Lemma tidy_val v : tidy v -> Forall tidy (val_items v).
Proof. intro H. destruct v; try (constructor; [exact H|constructor]). now apply existsb_tidy in H. Qed.
Lemma tidy_group vals mn mx v : tidy (IGroup vals mn mx) -> In v vals -> Forall tidy (val_items v).
Proof. intros H I. apply existsb_tidy in H. rewrite Forall_forall in H. now apply tidy_val, H. Qed.
Lemma tidy_rune it : tidy it -> it <> IRune RuneError.
Proof. intros H ->. discriminate H. Qed.
Lemma path_tidy F r : path F r -> Forall tidy F -> Forall tidy r.
Proof.
  induction 1 as [|it R r O P IH|l R r Z P IH|vals mn mx v R r I P IH|vals mn R mx r Z P IH]; intro T; [constructor| | | |]; inversion T as [|? ? T1 T2]; subst; auto.
  apply IH. apply Forall_app. split; auto. now apply (tidy_group vals mn mx).
Qed.
Lemma tidy_stray F : Forall tidy F -> ~ star_stray F.
Proof.
  intros T (r & a & k & b & P & ->). apply path_tidy in P; auto. apply Forall_app in P as [_ P]. inversion P as [|? ? _ P2]; subst. inversion P2 as [|? ? P3 _]; subst. discriminate P3.
Qed.

Lemma safe_quiet : forall F, safe F -> Forall tidy F -> quiet false F
with safe_star_quiet : forall F, safe_star F -> Forall tidy F -> quiet true F.
Proof.
  - intros F H. destruct H as [|it R O S|l R S|k R H|vals mn mx R H1 H2]; intro T; try (inversion T as [|? ? T1 T2]; subst).
    + constructor.
    + apply safe_quiet in S; auto. destruct it; try easy; try (now apply q_lit). now apply q_any.
    + apply q_list; intros; now apply safe_quiet.
    + apply q_star. destruct H as [->|H]; [constructor|]. now apply safe_star_quiet.
    + apply q_group; intros; apply safe_quiet; auto. apply Forall_app. split; auto. now apply (tidy_group vals mn mx).
  - intros F H. destruct H as [it R L S|k L|l R S H1 _|vals mn mx R H1 H2]; intro T; try (inversion T as [|? ? T1 T2]; subst).
    + apply q_lit; auto. intros _. now apply tidy_rune.
    + apply q_star. constructor.
    + apply q_list; [now apply safe_quiet|]. intro E. destruct (H1 E) as [->|H]; [constructor|now apply safe_star_quiet].
    + apply q_group; [intros v I; destruct (H1 v I) as [_ H]; apply safe_star_quiet; auto; apply Forall_app; split; auto; now apply (tidy_group vals mn mx)|].
      intro E. destruct (H2 E) as [->|H]; [constructor|now apply safe_star_quiet].
Qed.

Lemma bind_np {A C} (r : res A) (k : A -> res C) : r <> Panic -> (forall a, k a <> Panic) -> bind r k <> Panic.
Proof. destruct r; cbn; auto; try discriminate. Qed.
Definition NM f := forall s items next, quiet false (items ++ concat next) -> matchItems f s items next <> Panic.
Definition NSI f := forall s items next, quiet true (items ++ concat next) -> matchStarItems f s items next <> Panic.
Definition NSL f := forall s items next, quiet true (items ++ concat next) -> starLoop f s items next <> Panic.
Definition NO f := forall s rest next, quiet true (rest ++ concat next) -> optLoop f s rest next <> Panic.
Definition NL f := forall s vals rest next, quiet false (rest ++ concat next) -> listLoop f s vals rest next <> Panic.

Lemma np_cont f s rest next : NM f -> quiet false (rest ++ concat next) ->
  (if null rest then if next_empty next then Ok (null s)
      else let '(its, nx) := next_next next in bind (matchItems f s its nx) (fun '(m, _) => Ok m)
    else bind (matchItems f s rest next) (fun '(m, _) => Ok m)) <> Panic.
Proof.
  intros H L. destruct rest as [|i rest]; cbn [null].
  - destruct (next_empty next) eqn:E; [discriminate|]. pose proof (next_next_spec next E) as N. destruct (next_next next) as [its nx]. destruct N as (N & _).
    apply bind_np; [|intros [? ?]; discriminate]. apply H. now rewrite N.
  - apply bind_np; [|intros [? ?]; discriminate]. now apply H.
Qed.
Lemma lit_quiet p it R : literal_item it -> quiet p (it :: R) -> quiet false R.
Proof. intros L Q. inversion Q; subst; easy. Qed.

Lemma lit_found it R : literal_item it -> quiet true (it :: R) -> it <> IRune RuneError.
Proof. intros L Q. inversion Q; subst; try easy. auto. Qed.
Lemma item_match_flag it s off fl : item_match it s = (Some off, fl) ->
  match it with
  | IStr _ | IByte _ | IRune _ | IRanges _ | IAny _ => fl = FindDone
  | IStar _ => fl = FindStar
  | IList _ => fl = FindList
  | IGroup _ _ _ => fl = FindGroup
  | IChain _ _ _ => True
  end.
Proof. destruct it; cbn [item_match]; intro H; try exact I; repeat match type of H with context [match ?x with _ => _ end] => destruct x; try discriminate end; injection H; intros; subst; auto. Qed.
Lemma item_find_flag it s off len fl : item_find it s = (Some off, len, fl) ->
  match it with
  | IStr _ | IByte _ | IRune _ | IRanges _ => fl = FindDone /\ len <> None
  | IStar _ => fl = FindStar
  | IList _ => fl = FindList
  | IGroup _ _ _ => fl = FindGroup
  | IChain _ _ _ | IAny _ => True
  end.
Proof. destruct it; cbn [item_find]; intro H; try exact I; repeat match type of H with context [match ?x with _ => _ end] => destruct x; try discriminate end; injection H; intros; subst; auto; split; auto; discriminate. Qed.

Theorem no_panics : forall f, NM f /\ NSI f /\ NSL f /\ NO f /\ NL f.
Proof.
  induction f as [|f (IM & ISI & ISL & IO & IL)]; [repeat split; discriminate|].
  split; [|split; [|split; [|split]]].
  - intros s items next Q. cbn [matchItems]. destruct items as [|it rest].
    + destruct (next_empty next) eqn:E; [discriminate|]. pose proof (next_next_spec next E) as N. destruct (next_next next) as [its nx]. destruct N as (N & _).
      apply bind_np; [|intros [? ?]; discriminate]. apply IM. now rewrite N.
    + destruct (zlen s <? item_min it)%Z; [discriminate|].
      destruct (item_match it s) as [[off|] fl] eqn:Em; [|discriminate]. apply item_match_flag in Em.
      set (s1 := skipn off s) in *. clearbody s1. cbn [app] in Q.
      destruct it; try subst fl; try (apply IM; now apply lit_quiet in Q).
      * apply IM. inversion Q; subst; easy.
      * assert (Q1 : quiet true (rest ++ concat next)) by (inversion Q; subst; easy).
        destruct rest as [|i rest]; cbn [null]; [|now apply ISI]. destruct (next_empty next) eqn:E; [discriminate|].
        pose proof (next_next_spec next E) as N. destruct (next_next next) as [its nx]. destruct N as (N & _). apply ISI. now rewrite N.
      * assert (Q1 : quiet false (rest ++ concat next)) by (inversion Q; subst; easy).
        apply bind_np; [destruct (sl_optional l); [now apply np_cont|discriminate]|].
        intros [|]; [discriminate|]. generalize (sl_vals l). intro vs. induction vs as [|v vs IH]; [discriminate|].
        destruct (match_val s1 v); auto. apply bind_np; [now apply np_cont|]. intros [|]; [discriminate|auto].
      * assert (Q1 : (forall v, In v vals -> quiet false (val_items v ++ rest ++ concat next)) /\ (minsize = 0%Z -> quiet false (rest ++ concat next))) by (inversion Q; subst; easy).
        destruct Q1 as [Q1 Q2]. unfold group_optional. apply bind_np; [destruct (Z.eqb_spec minsize 0); [apply np_cont; auto|discriminate]|].
        intros [|]; [discriminate|].
        assert (K : forall v, In v vals -> matchItems f s1 (val_items v) (rest :: next) <> Panic) by (intros v I; now apply IM, Q1).
        clear - K. induction vals as [|v vs IH]; [discriminate|]. apply bind_np; [apply K; now left|]. intros [[|] ?]; [discriminate|]. apply IH. intros v' I. apply K. now right.
      * exfalso. inversion Q; subst; easy.
  - intros s items next Q. cbn [matchStarItems]. destruct items as [|it rest]; [|now apply ISL].
    destruct (next_empty next) eqn:E; [discriminate|]. pose proof (next_next_spec next E) as N. destruct (next_next next) as [its nx]. destruct N as (N & _). apply ISI. now rewrite N.
  - intros s items next Q. cbn [starLoop]. destruct items as [|it rest].
    + destruct (next_empty next) eqn:E; [discriminate|]. pose proof (next_next_spec next E) as N. destruct (next_next next) as [its nx]. destruct N as (N & _).
      apply bind_np; [|intros [? ?]; discriminate]. apply IM. rewrite N. now apply quiet_mono in Q.
    + destruct (zlen s <? item_min it)%Z; [discriminate|].
      destruct (item_find it s) as [[[off|] len] fl] eqn:Em; [|discriminate].
      assert (Rm : literal_item it -> forall n, len = Some n -> n <= length (skipn off s)).
      { intros L n ->. apply (find_room it s off n fl); auto. now apply lit_found in Q. }
      apply item_find_flag in Em. set (s1 := skipn off s) in *. clearbody s1.
      assert (Sh : forall its, quiet true (its ++ concat next) -> (let '(_, n) := decode_rune s1 in if Nat.eqb n 0 then Ok (false, false) else starLoop f (skipn n s1) its next) <> Panic).
      { intros its Qi. destruct (decode_rune s1) as [r n]. destruct (Nat.eqb n 0); [discriminate|]. now apply ISL. }
      assert (Li : literal_item it -> fl = FindDone /\ len <> None -> 
        match after_found len s1 with None => Panic | Some sub => bind (matchItems f sub rest next) (fun '(m, a) => if m || a then Ok (m, a) else
           let '(_, n) := decode_rune s1 in if Nat.eqb n 0 then Ok (false, false) else starLoop f (skipn n s1) (it :: rest) next) end <> Panic).
      { intros L [_ Nl]. destruct len as [n|]; [|easy]. rewrite (after_found_ok n s1) by auto. apply bind_np; [apply IM; now apply lit_quiet in Q|]. intros [m a]. destruct (m || a); [discriminate|]. now apply Sh. }
      destruct it; try (destruct Em as [-> Nl]; apply Li; [exact I|auto]); clear Li; try subst fl.
      * exfalso. inversion Q; subst; easy.
      * assert (Q1 : quiet true (rest ++ concat next)) by (inversion Q; subst; easy).
        destruct rest as [|i rest]; cbn [null]; [|now apply Sh]. destruct (next_empty next) eqn:E; [discriminate|].
        pose proof (next_next_spec next E) as N. destruct (next_next next) as [its nx]. destruct N as (N & _).
        apply bind_np; [apply ISI; now rewrite N|]. intros [[|] ?]; [discriminate|]. now apply Sh.
      * assert (Q1 : quiet false (rest ++ concat next) /\ (sl_min l = 0%Z -> quiet true (rest ++ concat next))) by (inversion Q; subst; easy).
        destruct Q1 as [Q1 Q2]. unfold sl_optional. apply bind_np; [destruct (Z.eqb_spec (sl_min l) 0); [apply IO; auto|discriminate]|].
        intros [m [|]]; [discriminate|]. apply bind_np; [now apply IL|discriminate].
      * assert (Q1 : (forall v, In v vals -> quiet true (val_items v ++ rest ++ concat next)) /\ (minsize = 0%Z -> quiet true (rest ++ concat next))) by (inversion Q; subst; easy).
        destruct Q1 as [Q1 Q2]. unfold group_optional. apply bind_np.
        -- destruct (Z.eqb_spec minsize 0) as [E0|]; [|discriminate]. specialize (Q2 E0). destruct rest as [|i rest]; cbn [null].
           ++ destruct (next_empty next) eqn:E; [discriminate|]. pose proof (next_next_spec next E) as N. destruct (next_next next) as [its nx]. destruct N as (N & _).
              apply bind_np; [apply ISI; now rewrite N|intros [? ?]; discriminate].
           ++ apply bind_np; [now apply ISI|intros [? ?]; discriminate].
        -- intros [|]; [discriminate|].
           assert (K : forall v, In v vals -> matchStarItems f s1 (val_items v) (rest :: next) <> Panic) by (intros v I; now apply ISI, Q1).
           clear - K. induction vals as [|v vs IH]; [discriminate|]. apply bind_np; [apply K; now left|]. intros [[|] ?]; [discriminate|]. apply IH. intros v' I. apply K. now right.
      * exfalso. inversion Q; subst; easy.
  - intros s rest next Q. cbn [optLoop].
    assert (Sh : (let '(_, n) := decode_rune s in if Nat.eqb n 0 then Ok (false, false) else optLoop f (skipn n s) rest next) <> Panic).
    { destruct (decode_rune s) as [r n]. destruct (Nat.eqb n 0); [discriminate|]. now apply IO. }
    destruct rest as [|i rest]; cbn [null].
    + destruct (next_empty next) eqn:E; [destruct (null s); [discriminate|exact Sh]|].
      pose proof (next_next_spec next E) as N. destruct (next_next next) as [its nx]. destruct N as (N & _).
      apply bind_np; [apply IM; rewrite N; now apply quiet_mono in Q|]. intros [[|] ?]; [discriminate|exact Sh].
    + apply bind_np; [now apply ISI|]. intros [[|] ?]; [discriminate|exact Sh].
  - intros s vals rest next Q. cbn [listLoop]. apply bind_np.
    + assert (C : forall o, (if null rest then if next_empty next then Ok (null (skipn o s))
          else let '(its, nx) := next_next next in bind (matchItems f (skipn o s) its nx) (fun '(m, _) => Ok m)
          else bind (matchItems f (skipn o s) rest next) (fun '(m, _) => Ok m)) <> Panic) by (intro o; now apply np_cont).
      generalize (@None nat). generalize vals. intro vs. induction vs as [|v vs IH]; intro off; [discriminate|].
      destruct (find_val s v) as [o|]; [|apply IH]. apply bind_np; [apply C|]. intros [|]; [discriminate|]. apply IH.
    + intros [u|[o|]]; try discriminate. cbv zeta. destruct (decode_rune (skipn o s)) as [r n]. destruct (Nat.eqb n 0); [discriminate|]. now apply IL.
Qed.
Lemma glob_match_np g s : quiet false (g_items g) -> glob_match g s <> Panic.
Proof.
  intro Q. unfold glob_match. repeat match goal with |- context [if ?b then _ else _] => destruct b; try discriminate end.
  unfold match_items. apply bind_np; [|intros [? ?]; discriminate]. apply no_panics. now rewrite app_nil_r.
Qed.
(** What holds of every token and is kept by merging holds of every parsed item. *)
Lemma append_forall (P : item -> Prop) rl it : (forall x y m, P x -> P y -> merge_last x y = Some m -> P m) ->
  Forall P rl -> P it -> Forall P (append_item_rev rl it).
Proof.
  intros M F H. destruct rl as [|x r]; [now constructor|]. cbn [append_item_rev]. inversion F; subst.
  destruct (merge_last x it) as [m|] eqn:E; [|now repeat constructor]. constructor; eauto.
Qed.
Lemma loop_forall (P : item -> Prop) g suffix : (forall x y m, P x -> P y -> merge_last x y = Some m -> P m) ->
  (forall f s it a rest done, token f s (Some it) a rest -> g = done ++ a ++ rest ++ suffix -> P it) ->
  forall f t done prefix mn mx rl prefix' mn' mx' rl', g = done ++ t ++ suffix -> Forall P rl ->
  parse_loop f t (prefix, mn, mx, rl) = Ok (prefix', mn', mx', rl') -> Forall P rl'.
Proof.
  intros M T. induction f as [|f IH]; intros t done prefix mn mx rl prefix' mn' mx' rl' Eg F H.
  { destruct t; [|discriminate]. now injection H as <- <- <- <-. }
  destruct t as [|c t]; [now injection H as <- <- <- <-|].
  cbn [parse_loop] in H. remember (c :: t) as s eqn:Es.
  destruct (next_wildcard_item s) as [[oi rest]|e| |] eqn:E; try discriminate. unfold next_wildcard_item in E.
  apply next_token in E as (a & Tk). destruct (token_text _ _ _ _ _ Tk) as [Ea Na].
  assert (Eg' : g = (done ++ a) ++ rest ++ suffix) by (rewrite Eg, Ea, <- !app_assoc; reflexivity).
  destruct oi as [it|]; [|exact (IH _ _ _ _ _ _ _ _ _ _ Eg' F H)].
  assert (Pi : P it) by (eapply T; [exact Tk|rewrite Eg'; now rewrite <- app_assoc]).
  destruct (parse_step (prefix, mn, mx, rl) it) as [[[p1 n1] x1] r1] eqn:S1.
  refine (IH _ _ _ _ _ _ _ _ _ _ Eg' _ H). apply (f_equal snd) in S1. change r1 with (snd (p1, n1, x1, r1)). rewrite <- S1.
  unfold parse_step. destruct rl; [destruct it; cbn; auto|]. now apply append_forall.
Qed.
Lemma parse_forall (P : item -> Prop) g gl : (forall x y m, P x -> P y -> merge_last x y = Some m -> P m) -> (In "*"%char g -> P (IStar 0)) ->
  (In "?"%char g -> P (IAny 1)) ->
  (forall f s it a rest done suffix, token f s (Some it) a rest -> g = done ++ a ++ rest ++ suffix -> P it) ->
  glob_parse g = Ok gl -> Forall P (g_items gl).
Proof.
  intros M P1 P2 T H. unfold glob_parse in H. destruct (index_wildcard g) as [pos|]; [|injection H as <-; constructor].
  destruct (index_last_wildcard (skipn pos g)) as [e|]; [|discriminate].
  destruct (Nat.eqb e 0 && negb (Ascii.eqb (nth 0 (skipn pos g) zero) "?") && negb (Ascii.eqb (nth 0 (skipn pos g) zero) "*")); [discriminate|].
  destruct (if (e <? length (skipn pos g) - 1)%nat then (skipn (S e) (skipn pos g), firstn (S e) (skipn pos g)) else ([], skipn pos g)) as [suffix body] eqn:F.
  assert (Eg : g = firstn pos g ++ body ++ suffix).
  { destruct (e <? length (skipn pos g) - 1)%nat; pose proof (f_equal fst F) as F1; pose proof (f_equal snd F) as F2; cbn [fst snd] in F1, F2; rewrite <- F1, <- F2.
    - rewrite (firstn_skipn (S e) (skipn pos g)). now rewrite firstn_skipn.
    - now rewrite app_nil_r, firstn_skipn. }
  assert (FI : forall t p s mn mx its, g_items (finish_glob t p s mn mx its) = its) by (intros; destruct its; reflexivity).
  destruct (str_eqb_spec body (B "*")) as [Eb|]; [apply ok_inj in H; rewrite <- H, FI; constructor; [|constructor]; apply P1; rewrite Eg, Eb; apply in_or_app; right; now left|].
  destruct (str_eqb_spec body (B "?")) as [Eb|]; [apply ok_inj in H; rewrite <- H, FI; constructor; [|constructor]; apply P2; rewrite Eg, Eb; apply in_or_app; right; now left|].
  destruct (parse_loop (length body) body (firstn pos g, (zlen (firstn pos g) + zlen suffix)%Z, (zlen (firstn pos g) + zlen suffix)%Z, [])) as [[[[p1 n1] x1] r1]|e1| |] eqn:El; try discriminate.
  cbn [bind] in H. destruct (take_suffix suffix r1) as [s2 r2] eqn:Et. apply ok_inj in H. rewrite <- H, FI.
  apply (loop_forall P g suffix M) with (done := firstn pos g) in El; auto; [|intros; eapply T; eauto].
  apply Forall_rev. unfold take_suffix in Et. destruct r1 as [|x [|y r]]; [now injection Et as _ <-|destruct x; now injection Et as _ <-|].
  inversion El; subst. destruct x; injection Et as _ <-; auto.
Qed.

(** What the items of a glob are made of, when its text has no '*' ([star] = false) or no '?' ([any] = false). *)
Section Made.
Variables star any : bool.
Variable cls : rranges -> Prop.
Definition calm1 (it : item) : Prop :=
  match it with IStr _ | IByte _ | IRune _ => True | IRanges rs => cls rs | IStar k => star = true /\ (any = false -> k = 0) | IAny _ => any = true | _ => False end.
Definition calm (it : item) : Prop :=
  match it with
  | IList _ => True
  | IGroup vals _ _ => vals <> [] /\ forall v, In v vals -> Forall calm1 (val_items v)
  | _ => calm1 it
  end.
Definition within (s : str) : Prop := (In "*"%char s -> star = true) /\ (In "?"%char s -> any = true) /\ 
  (forall a body b rs, s = a ++ bracketed body ++ b -> ~ In "]"%char body -> class_item body = Ok (Some (IRanges rs)) -> cls rs).
Lemma within_part a b c : within (a ++ b ++ c) -> within b.
Proof.
  intros (S & A & C). split; [|split].
  - intro I. apply S. apply in_or_app. right. apply in_or_app. now left.
  - intro I. apply A. apply in_or_app. right. apply in_or_app. now left.
  - intros x body y rs E. apply (C (a ++ x) body (y ++ c)). now rewrite E, <- !app_assoc.
Qed.
Lemma within_app a b : within (a ++ b) -> within a /\ within b.
Proof. intro W. split; [apply (within_part [] a b); exact W|apply (within_part a b []); now rewrite app_nil_r]. Qed.
Lemma class_calm body it : class_item body = Ok (Some it) -> (forall rs, it = IRanges rs -> cls rs) -> calm1 it.
Proof. intros H C. apply class_kind in H. destruct it; try easy. now apply C. Qed.
Lemma single_calm v : calm1 (single_item v).
Proof. unfold single_item. destruct (decode_rune v) as [r n]. destruct (Nat.eqb n (length v)); [destruct (r <=? 127)%N|]; exact I. Qed.
Lemma calm1_calm it : calm1 it -> calm it.
Proof. destruct it; easy. Qed.
Lemma calm1_merge x y m : calm1 x -> calm1 y -> merge_last x y = Some m -> calm1 m.
Proof. intros Hx Hy E. destruct x, y; try discriminate; injection E as <-; cbn in *; auto; (split; [tauto|]); intro F; repeat match goal with H : _ /\ _ |- _ => destruct H end; try congruence; intuition lia. Qed.
Lemma calm_merge x y m : calm x -> calm y -> merge_last x y = Some m -> calm m.
Proof.
  intros Hx Hy E. apply calm1_calm, (calm1_merge x y); auto; destruct x, y; try discriminate; auto.
Qed.
Lemma token_calm f s oi a rest : token f s oi a rest -> ~ In "}"%char s -> within s -> match oi with Some i => calm1 i | None => True end.
Proof.
  intros [body r o N H|body r o N H|n r N|r|b c r Na N Mc|b Na N] NB (WS & WA & WC).
  - destruct o as [it|]; auto. apply (class_calm body); auto. intros rs ->. now apply (WC [] body r rs).
  - exfalso. apply NB. rewrite braced_app. right. apply in_or_app. right. now left.
  - split; [apply WS; now left|auto].
  - apply WA. now left.
  - apply single_calm.
  - exact I.
Qed.
Lemma group_chain_calm f0 : forall fuel v st rl mn mx, ~ In "}"%char v -> within v -> Forall calm1 (fst (fst st)) ->
  group_chain fuel (next_item f0) v st = Ok (rl, mn, mx) -> Forall calm1 rl.
Proof.
  induction fuel as [|f IH]; intros v [[rl0 mn0] mx0] rl mn mx NB NS F H; cbn [group_chain] in H.
  - destruct v; [|discriminate]. now injection H as <- <- <-.
  - destruct v as [|c v]; [now injection H as <- <- <-|].
    destruct (next_item f0 (c :: v)) as [[oi rest]|e| |] eqn:E; try discriminate.
    destruct f0 as [|f0]; [discriminate|]. apply next_token in E as (a & T). pose proof (token_calm _ _ _ _ _ T NB NS) as O.
    destruct (token_text _ _ _ _ _ T) as [Ea _]. rewrite Ea in NB, NS.
    assert (NB' : ~ In "}"%char rest) by (intro I; apply NB; apply in_or_app; now right).
    apply within_app in NS as [_ NS'].
    destruct oi as [it|].
    + unfold chain_append in H. apply IH in H; auto. cbn in *. apply append_forall; auto. exact calm1_merge.
    + apply IH in H; auto.
Qed.
Lemma group_vals_calm f0 : forall vals l, Forall (fun v => ~ In "}"%char v) vals -> Forall within vals ->
  group_vals (next_item f0) vals = Ok (inr l) -> forall v, In v l -> Forall calm1 (val_items v).
Proof.
  induction vals as [|v vals IH]; intros l NB NS H; cbn [group_vals] in H.
  - injection H as <-. intros v [].
  - inversion NB as [|? ? N1 N2]; inversion NS as [|? ? S1 S2]; subst. destruct (has_wildcard v) eqn:W.
    + destruct (str_eqb_spec v (B "*")) as [->|Ns]; [discriminate|].
      destruct (if str_eqb v (B "?") then Ok (IAny 1) else group_val (next_item f0) v) as [it|e| |] eqn:E; try discriminate. cbn [bind] in H.
      assert (V : Forall calm1 (val_items it)).
      { destruct (str_eqb_spec v (B "?")) as [->|Nq].
        - injection E as <-. constructor; [|constructor]. apply S1. now left.
        - unfold group_val in E. destruct (group_chain (length v) (next_item f0) v ([], 0%Z, 0%Z)) as [[[rl mn] mx]|e| |] eqn:E2; try discriminate.
          cbn [bind] in E. apply group_chain_calm in E2; auto; [|constructor]. destruct rl as [|x [|y rl]]; injection E as <-.
          + constructor.
          + inversion E2 as [|? ? C1 C2]; subst. assert (val_items x = [x]) as ->; [|auto]. destruct x; auto. destruct C1.
          + exact (Forall_rev E2). }
      destruct (group_vals (next_item f0) vals) as [[r0|r0]|e| |] eqn:E2; try discriminate. cbn [bind] in H. injection H as <-.
      specialize (IH r0 N2 S2 eq_refl). intros x [<-|I]; auto.
    + destruct (group_vals (next_item f0) vals) as [[r0|r0]|e| |] eqn:E2; try discriminate. cbn [bind] in H. injection H as <-.
      specialize (IH r0 N2 S2 eq_refl). intros x [<-|I]; auto. constructor; [exact I|constructor].
Qed.
Lemma list_calm f vals oi : Forall (fun v => ~ In "}"%char v) vals -> Forall within vals ->
  new_item_list (next_item f) vals = Ok oi -> match oi with Some it => calm it | None => True end.
Proof.
  intros NB NS H. unfold new_item_list in H. destruct vals as [|v [|v2 vals]]; [injection H as <-; exact I| |].
  - destruct v; cbn [null] in H; injection H as <-; [exact I|]. apply calm1_calm, single_calm.
  - remember (v :: v2 :: vals) as vs eqn:Evs.
    destruct (list_scan vs max_int 0 true as_empty) as [[[[mn mx] st] fi] hs] eqn:E. destruct hs.
    + unfold new_group in H. destruct (group_vals (next_item f) vs) as [[it|l]|e| |] eqn:Eg; try discriminate; cbn [bind] in H.
      * injection H as <-. clear - Eg NS. revert it Eg NS. induction vs as [|v vs IH]; intros it H NS; cbn [group_vals] in H; [discriminate|].
        inversion NS as [|? ? S1 S2]; subst.
        destruct (has_wildcard v).
        -- destruct (str_eqb_spec v (B "*")) as [->|]; [injection H as <-; split; [apply S1; now left|auto]|].
           destruct (if str_eqb v (B "?") then Ok (IAny 1) else group_val (next_item f) v); try discriminate; cbn [bind] in H.
           destruct (group_vals (next_item f) vs) as [[r|r]|e| |]; try discriminate; cbn [bind] in H; injection H as <-; auto.
        -- destruct (group_vals (next_item f) vs) as [[r|r]|e| |]; try discriminate; cbn [bind] in H; injection H as <-; auto.
      * pose proof (group_vals_calm f vs l NB NS Eg) as K. destruct l as [|x l]; [injection H as <-; exact I|]. destruct (group_bounds l (item_min x) (item_max x)).
        injection H as <-. split; [discriminate|exact K].
    + assert (exists vs0, oi = Some (if st then IList (mkSList st fi vs0 mn mx) else IList (mkSList false as_empty vs0 mn mx))) as (vs0 & ->).
      { subst vs. destruct (mn =? 0)%Z; [destruct v; [|discriminate]|]; injection H as <-; eauto. }
      destruct st; exact I.
Qed.
Lemma parse_calm g gl : within g -> glob_parse g = Ok gl -> Forall calm (g_items gl).
Proof.
  intros (WS & WA & WC) H. apply (parse_forall calm) with (g := g); auto.
  - exact calm_merge.
  - intro I. split; auto.
  - intros f t it a rest done suffix T E.
    assert (Wa : within a).
    { apply (within_part done a (rest ++ suffix)). rewrite <- E. split; auto. }
    clear WS WA WC. inversion T; subst.
    + apply calm1_calm, (class_calm body); auto. intros rs ->. apply (proj2 (proj2 Wa) [] body [] rs); auto. now rewrite app_nil_r.
    + match goal with H : _ \/ _ |- _ => destruct H as [[_ ?]|[_ K]]; [discriminate|] end.
      apply (list_calm _ _ (Some it)) in K; auto.
      * apply Forall_forall. intros v I J. apply (proj1 (norm_in _ _)) in I. destruct (split_part "," body v I) as (p & q & -> & _).
        match goal with X : ~ In "}"%char _ |- _ => apply X end. apply in_or_app. right. apply in_or_app. now left.
      * apply Forall_forall. intros v I. apply (proj1 (norm_in _ _)) in I. destruct (split_part "," body v I) as (p & q & -> & _).
        apply (within_part ("{"%char :: p) v (q ++ ["}"%char])). unfold braced in Wa. now rewrite <- !app_assoc in Wa.
    + split; [apply Wa; now left|auto].
    + apply Wa. now left.
    + apply calm1_calm, single_calm.
    + exact I.
Qed.
End Made.

(** Without '?' and U+FFFD nothing can panic. *)
Lemma calm1_quiet l R : Forall (calm1 true false (fun _ => True)) l -> Forall tidy l -> quiet true R -> quiet true (l ++ R).
Proof.
  intros F T Q. induction F as [|it l H F IH]; cbn [app]; auto. inversion T as [|? ? T1 T2]; subst. specialize (IH T2).
  assert (Q0 : quiet false (l ++ R)) by now apply quiet_mono in IH. apply tidy_rune in T1.
  destruct it; try easy; try (now apply q_lit). now apply q_star.
Qed.
Lemma calm_quiet l : Forall (calm true false (fun _ => True)) l -> Forall tidy l -> quiet true l.
Proof.
  induction 1 as [|it l H F IH]; intro T; [constructor|]. inversion T as [|? ? T1 T2]; subst. specialize (IH T2). assert (IH0 : quiet false l) by now apply quiet_mono in IH.
  pose proof (tidy_rune it T1) as T3. destruct it; try easy; try (now apply q_lit).
  - now apply q_star.
  - apply q_list; auto.
  - apply q_group; auto. intros v I. apply calm1_quiet; auto; [now apply H|now apply (tidy_group _ _ _ v T1)].
Qed.
Lemma no_any_np g gl s : ~ In "?"%char g -> glob_parse g = Ok gl -> Forall tidy (g_items gl) -> glob_match gl s <> Panic.
Proof.
  intros N H T. apply glob_match_np, (quiet_mono true), calm_quiet; auto. apply (parse_calm true false (fun _ => True) g); auto. now repeat split.
Qed.
(** Nor without '*'. *)
Lemma still1_quiet l R : Forall (calm1 false true (fun _ => True)) l -> quiet false R -> quiet false (l ++ R).
Proof.
  intros F Q. induction F as [|it l H F IH]; cbn [app]; auto. destruct it; try easy; try (now apply q_lit); [now apply q_any|destruct H; discriminate].
Qed.
Lemma still_quiet l : Forall (calm false true (fun _ => True)) l -> quiet false l.
Proof.
  induction 1 as [|it l H F IH]; [constructor|]. destruct it; try easy; try (now apply q_lit).
  - now apply q_any.
  - destruct H; discriminate.
  - apply q_list; auto.
  - apply q_group; auto. intros v I. apply still1_quiet; auto. now apply H.
Qed.
Lemma no_star_np g gl s : ~ In "*"%char g -> glob_parse g = Ok gl -> glob_match gl s <> Panic.
Proof.
  intros N H. apply glob_match_np, still_quiet. apply (parse_calm false true (fun _ => True) g); auto. now repeat split.
Qed.

(** In general: no path puts '?' or U+FFFD directly after a star. *)
Definition lost (it : item) : Prop := it = IRune RuneError \/ exists n, it = IAny n.
Definition bad (r : list item) : Prop := exists a k it b, r = a ++ IStar k :: it :: b /\ lost it.
Lemma bad_cons it r : bad r -> bad (it :: r).
Proof. intros (a & k & x & b & -> & L). exists (it :: a), k, x, b. auto. Qed.
Lemma bad_star k k' r : bad (IStar k :: r) -> bad (IStar k' :: r).
Proof.
  intros (a & j & n & b & E & L). destruct a as [|x a]; injection E as E1 E2.
  - subst r. exists [], k', n, b. auto.
  - subst r. exists (IStar k' :: a), j, n, b. auto.
Qed.
Definition wsize (it : item) : nat := match it with IGroup vals _ _ => 1 + list_sum (map (fun v => length (val_items v)) vals) | _ => 1 end.
Lemma in_list_sum {A} (f : A -> nat) l x : In x l -> f x <= list_sum (map f l).
Proof.
  induction l as [|y l IH]; [easy|]. change (list_sum (map f (y :: l))) with (f y + list_sum (map f l)).
  intros [<-|I]; [lia|]. apply IH in I. lia.
Qed.
Lemma calm1_size l : Forall (calm1 true true (fun _ => True)) l -> list_sum (map wsize l) = length l.
Proof.
  induction 1 as [|it l H F IH]; auto. change (list_sum (map wsize (it :: l))) with (wsize it + list_sum (map wsize l)).
  rewrite IH. destruct it; easy.
Qed.
Lemma calm1_all l : Forall (calm1 true true (fun _ => True)) l -> Forall (calm true true (fun _ => True)) l.
Proof. intro F. eapply Forall_impl; [|exact F]. apply calm1_calm. Qed.
Lemma list_sum_app' (a b : list item) : list_sum (map wsize (a ++ b)) = list_sum (map wsize a) + list_sum (map wsize b).
Proof. now rewrite map_app, list_sum_app. Qed.
Lemma paths_quiet : forall n F, list_sum (map wsize F) <= n -> Forall (calm true true (fun _ => True)) F ->
  forall p : bool, (forall r, path F r -> ~ bad (if p then IStar 0 :: r else r)) -> quiet p F.
Proof.
  induction n as [|n IH]; intros F L C p H.
  { destruct F as [|it R]; [constructor|]. exfalso. cbn in L. destruct it; cbn in L; lia. }
  destruct F as [|it R]; [constructor|].
  change (list_sum (map wsize (it :: R))) with (wsize it + list_sum (map wsize R)) in L.
  assert (W : 1 <= wsize it) by (destruct it; cbn; lia). inversion C as [|? ? Ci CR]; subst.
  assert (Next : forall q : bool, (forall r, path R r -> ~ bad (if q then IStar 0 :: r else r)) -> quiet q R) by (intros q Hq; apply IH; auto; lia).
  assert (One : match it with IGroup _ _ _ | IChain _ _ _ => False | _ => True end -> quiet false R).
  { intro O. apply Next. intros r P X. apply (H (it :: r)); [now apply pa_one|]. destruct p; repeat apply bad_cons; auto. }
  assert (Lo : match it with IGroup _ _ _ | IChain _ _ _ => False | _ => True end -> p = true -> ~ lost it).
  { intros O -> Lt. apply (H [it]); [apply pa_one; [exact O|constructor]|]. exists [], 0, it, []. auto. }
  destruct it; try (apply q_lit; [exact I|intros Ep Er; apply (Lo I Ep); now left|now apply One]).
  - destruct p; [|apply q_any; now apply One]. exfalso. apply (Lo I eq_refl). right. eauto.
  - apply q_star. apply Next. intros r P X. apply (H (IStar n0 :: r)); [now apply pa_one|].
    apply (bad_star _ n0) in X. destruct p; [now apply bad_cons|auto].
  - apply q_list; [now apply One|]. intro E. apply Next. intros r P. apply H. now apply pa_no_list.
  - apply q_group.
    + intros v I. pose proof (proj2 Ci v I) as Cv. apply IH.
      * rewrite list_sum_app', calm1_size by auto. cbn in L.
        pose proof (in_list_sum (fun v => length (val_items v)) vals v I) as K. cbn beta in K. lia.
      * apply Forall_app. split; [now apply calm1_all|auto].
      * intros r P. apply H. now apply pa_group with v.
    + intro E. apply Next. intros r P. apply H. now apply pa_no_group.
  - destruct Ci.
Qed.
Lemma trap_bad F r : ~ star_trap F -> path F r -> ~ bad r.
Proof. intros N P (a & k & it & b & E & [->|[n ->]]); apply N; [right; exists r, a, k, b; auto|left; exists r, a, k, n, b; auto]. Qed.
Lemma items_np g gl s : glob_parse g = Ok gl -> ~ star_trap (g_items gl) -> glob_match gl s <> Panic.
Proof.
  intros H N. apply glob_match_np. apply (paths_quiet (list_sum (map wsize (g_items gl)))); auto.
  - apply (parse_calm true true (fun _ => True) g); auto. now repeat split.
  - intros r P. now apply (trap_bad (g_items gl)).
Qed.
