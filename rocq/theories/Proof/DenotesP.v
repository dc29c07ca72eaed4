(** Lemmas on the text-level meaning of globs. *)
From Verif Require Import Model.Items Spec.Symbols Spec.Class Spec.GlobSpec Spec.Lang.
From Verif Require Import Proof.Utf8P Proof.SymbolsP Proof.SortP Proof.AsciiSetP Proof.SkipP Proof.RangesP Proof.ClassSearchP Proof.LangP Proof.ListP Proof.ItemP.
From Coq Require Import Lia ZifyBool ZifyN ZifyNat.

Lemma is_wild_iff c : is_wild c = true <-> In c metas.
Proof.
  unfold is_wild, metas. cbn [B list_ascii_of_string In]. rewrite !orb_true_iff, !Ascii.eqb_eq. intuition congruence.
Qed.
Lemma metas_ascii c : In c metas -> (code c < 128)%N.
Proof. unfold metas. cbn [B list_ascii_of_string In]. intuition subst; reflexivity. Qed.
Lemma split_on_app c a t : split_on c (a ++ c :: t) = split_on c a ++ split_on c t.
Proof.
  induction a as [|x a IH]; cbn [app split_on]; [now rewrite Ascii.eqb_refl|].
  rewrite IH. destruct (Ascii.eqb c x); [reflexivity|]. pose proof (split_on_nonempty c a).
  destruct (split_on c a); [easy|]. reflexivity.
Qed.
Lemma split_on_none c s : ~ In c s -> split_on c s = [s].
Proof.
  induction s as [|x s IH]; intro N; [reflexivity|]. cbn [split_on].
  destruct (Ascii.eqb_spec c x) as [->|Ne]; [elim N; now left|]. rewrite IH; auto. intro; apply N; now right.
Qed.
Lemma alternative_split body v : alternative body v <-> In v (split_on "," body).
Proof.
  split.
  - intros (a & b & -> & N & Ha & Hb).
    assert (S : In v (split_on "," (v ++ b))).
    { destruct Hb as [->|(b' & ->)].
      - rewrite app_nil_r, split_on_none by auto. now left.
      - rewrite split_on_app, split_on_none by auto. now left. }
    destruct Ha as [->|(a' & ->)]; auto. rewrite <- app_assoc. cbn [app]. rewrite split_on_app. apply in_or_app. now right.
  - intro I. pose proof (split_no_sep _ _ _ I) as N. destruct (split_part _ _ _ I) as (a & b & E & Hb & Ha). exists a, b. auto.
Qed.

(** unique decomposition of bracketed text *)
Lemma cut_unique (c : ascii) (a a' b b' : str) : ~ In c a -> ~ In c a' -> a ++ c :: b = a' ++ c :: b' -> a = a' /\ b = b'.
Proof.
  revert a'. induction a as [|x a IH]; intros [|y a'] N N' E; cbn in *.
  - injection E as ->. auto.
  - injection E as -> E. elim N'. now left.
  - injection E as -> E. elim N. now left.
  - injection E as -> E. apply IH in E as [-> ->]; auto.
Qed.
Lemma bracketed_app body p : bracketed body ++ p = "["%char :: body ++ "]"%char :: p.
Proof. unfold bracketed. cbn. now rewrite <- app_assoc. Qed.
Lemma braced_app body p : braced body ++ p = "{"%char :: body ++ "}"%char :: p.
Proof. unfold braced. cbn. now rewrite <- app_assoc. Qed.

Lemma encode_not_meta r p c t : scalar r -> (forall c, In c metas -> r <> code c) -> In c metas -> encode_rune r ++ p <> c :: t.
Proof.
  intros S N I E. destruct (encode_head r (proj1 S)) as (b & tl & Eb & [(L & Cb & _)|(L & Cb)]); rewrite Eb in E; injection E as -> E.
  - now apply (N c).
  - apply metas_ascii in I. lia.
Qed.
Ltac meta := unfold metas; cbn [B list_ascii_of_string In]; tauto.

Lemma denotes_nil w : denotes [] w <-> w = [].
Proof.
  split; [|intros ->; constructor]. intro D. inversion D as [|r p w' S N D' E| | | | |]; subst; auto.
  - apply app_eq_nil in E as [E _]. now apply encode_nonempty in E.
  
Qed.
Lemma denotes_any p w : denotes ("?"%char :: p) w <-> exists x w', w = x :: w' /\ denotes p w'.
Proof.
  split; [|intros (x & w' & -> & D); now constructor]. intro D.
  inversion D as [|r p' w' S N D' E|p' x w' D' E| | | |]; subst; eauto.
  exfalso. eapply encode_not_meta; eauto. meta.
Qed.
Lemma denotes_star p w : denotes ("*"%char :: p) w <-> exists w1 w2, w = w1 ++ w2 /\ denotes p w2.
Proof.
  split; [|intros (x & w' & -> & D); now constructor]. intro D.
  inversion D as [|r p' w' S N D' E| |p' w1 w2 D' E| | |]; subst; eauto.
  exfalso. eapply encode_not_meta; eauto. meta.
Qed.
Lemma denotes_star_star p w : denotes ("*"%char :: "*"%char :: p) w <-> denotes ("*"%char :: p) w.
Proof.
  rewrite !denotes_star. split.
  - intros (w1 & w2 & -> & D). apply denotes_star in D as (w3 & w4 & -> & D). exists (w1 ++ w3), w4. now rewrite app_assoc.
  - intros (w1 & w2 & -> & D). exists w1, w2. split; auto. apply denotes_star. exists [], w2. auto.
Qed.
Lemma denotes_class body p w : ~ In "]"%char body -> (denotes (bracketed body ++ p) w <->
  (exists r w', w = encode_rune r :: w' /\ scalar r /\ in_class body r /\ denotes p w') \/
  ((forall r, ~ in_class body r) /\ denotes p w)).
Proof.
  intro N. split.
  - rewrite bracketed_app. intro D. 
    inversion D as [|r p' w' S N' D' E| | |body' p' r w' N' S I D' E|body' p' w' N' I D' E|]; subst.
    + exfalso. eapply encode_not_meta; eauto. meta.
    + rewrite <- app_assoc in E. cbn [app] in E. apply cut_unique in E as [-> ->]; auto. left. eauto 10.
    + rewrite <- app_assoc in E. cbn [app] in E. apply cut_unique in E as [-> ->]; auto.
  - intros [(r & w' & -> & S & I & D)|[I D]]; [now constructor|now apply d_no_class].
Qed.
Lemma denotes_list body p w : ~ In "}"%char body -> (denotes (braced body ++ p) w <->
  exists v w1 w2, w = w1 ++ w2 /\ In v (split_on "," body) /\ denotes v w1 /\ denotes p w2).
Proof.
  intro N. split.
  - rewrite braced_app. intro D. 
    inversion D as [|r p' w' S N' D' E| | | | |body' v p' w1 w2 N' A D1 D2 E]; subst.
    + exfalso. eapply encode_not_meta; eauto. meta.
    + rewrite <- app_assoc in E. cbn [app] in E. apply cut_unique in E as [-> ->]; auto. apply alternative_split in A. eauto 10.
  - intros (v & w1 & w2 & -> & A & D1 & D2). apply alternative_split in A. econstructor; eauto.
Qed.
Lemma encode_all_cons r rs : encode_all (r :: rs) = encode_rune r ++ encode_all rs.
Proof. reflexivity. Qed.
Lemma encode_app_inj r r' p p' : valid_rune r = true -> valid_rune r' = true -> encode_rune r ++ p = encode_rune r' ++ p' -> r = r' /\ p = p'.
Proof.
  intros V V' E. pose proof (decode_encode r p V) as D. pose proof (decode_encode r' p' V') as D'. rewrite E, D' in D.
  injection D as -> _. split; auto. now apply app_inv_head in E.
Qed.
Lemma denotes_symbol r p w : scalar r -> (forall c, In c metas -> r <> code c) ->
  (denotes (encode_rune r ++ p) w <-> exists w', w = encode_rune r :: w' /\ denotes p w').
Proof.
  intros S N. split; [|intros (w' & -> & D); now constructor]. intro D.
  inversion D as [E|r' p' w' S' N' D' E|p' x w' D' E|p' w1 w2 D' E|body' p' r' w' N' S' I D' E|body' p' w' N' I D' E|body' v p' w1 w2 N' A D1 D2 E]; subst.
  - symmetry in E. apply app_eq_nil in E as [E _]. now apply encode_nonempty in E.
  - apply encode_app_inj in E as [-> ->]; [eauto|apply S'|apply S].
  - symmetry in E. exfalso. revert E. apply encode_not_meta; auto. meta.
  - symmetry in E. exfalso. revert E. apply encode_not_meta; auto. meta.
  - symmetry in E. exfalso. revert E. apply encode_not_meta; auto. meta.
  - symmetry in E. exfalso. revert E. apply encode_not_meta; auto. meta.
  - symmetry in E. exfalso. revert E. apply encode_not_meta; auto. meta.
Qed.

Lemma runes_not_meta rs c : Forall scalar rs -> In c metas -> ~ In c (encode_all rs) -> Forall (fun r => r <> code c) rs.
Proof.
  intros F I N. apply Forall_forall. intros r Ir ->. apply N. unfold encode_all. apply in_concat.
  exists (encode_rune (code c)). split; [now apply in_map|]. rewrite string_byte_ascii by now apply metas_ascii. now left.
Qed.
Lemma denotes_literal v p w : clean v -> (forall c, In c v -> ~ In c metas) ->
  (denotes (v ++ p) w <-> exists w', w = symbols v ++ w' /\ denotes p w').
Proof.
  intros (rs & F & ->) N. revert w. induction F as [|r rs S F IH]; intro w.
  - cbn. split; [eauto|]. intros (w' & -> & D). exact D.
  - rewrite encode_all_cons, <- app_assoc, denotes_symbol; auto.
    + rewrite symbols_encode by apply S. cbn [app]. split.
      * intros (w' & -> & D). apply IH in D as (w2 & -> & D); eauto. intros c I. apply N. rewrite encode_all_cons. apply in_or_app. now right.
      * intros (w' & -> & D). eexists. split; [reflexivity|]. apply IH; eauto. intros c I. apply N. rewrite encode_all_cons. apply in_or_app. now right.
    + intros c I ->. apply (N c); auto. rewrite encode_all_cons. apply in_or_app. left. rewrite string_byte_ascii by now apply metas_ascii. now left.
Qed.
Lemma denotes_text v w : clean v -> (forall c, In c v -> ~ In c metas) -> (denotes v w <-> w = symbols v).
Proof.
  intros C N. pose proof (denotes_literal v [] w C N) as D. rewrite app_nil_r in D. rewrite D. split.
  - intros (w' & -> & D'). apply denotes_nil in D' as ->. now rewrite app_nil_r.
  - intros ->. exists []. rewrite app_nil_r. split; auto. constructor.
Qed.

(** class membership *)
Lemma in_class_zero body : in_class body 0%N -> In zero body.
Proof.
  intros (rs & ps & F & -> & CP & a & b & I & L). assert (a = 0)%N by lia. subst a.
  assert (In 0%N rs).
  { clear L. induction CP as [|t ps CP IH|c t ps D H CP IH|c ds D H|c ds d t ps D NE H D' CP IH].
    - easy.
    - inversion F; subst. right. auto.
    - inversion F; subst. destruct I as [[= -> _]|I]; [now left|]. right. auto.
    - destruct I as [[= -> _]|[]]. now left.
    - destruct I as [[= -> _]|I]; [now left|]. right. apply in_or_app. right. right. apply IH; auto.
      inversion F; subst. apply Forall_app in H3 as [_ H3]. now inversion H3. }
  unfold encode_all. apply in_concat. exists (encode_rune 0%N). split; [now apply in_map|]. now left.
Qed.
Lemma in_class_scalar_cases body rs r : clean body -> ranges_expand (bracketed body) = Some rs -> in_class body r -> mem rs r.
Proof.
  intros C E I. destruct (ranges_expand_ok _ _ C E) as (Fin & _ & _ & D). apply D in I. now apply fin_contains.
Qed.
