(** What Match and Find of a single item return, in terms of symbols. *)
From Verif Require Import Model.Glob Spec.Symbols Spec.Lang Spec.Safe.
From Verif Require Import Proof.Utf8P Proof.SymbolsP Proof.SkipP Proof.ClassSearchP Proof.RangesP Proof.SortP Proof.LangP.
From Coq Require Import Lia ZifyBool ZifyN ZifyNat.

Lemma has_prefix_nil s : has_prefix s [] = true.
Proof. now destruct s. Qed.
Lemma has_prefix_iff s t : has_prefix s t = true <-> exists r, s = t ++ r.
Proof.
  revert s. induction t as [|c t IH]; intro s.
  - split; [intros _; now exists s|now destruct s].
  - destruct s as [|d s]; [split; [discriminate|intros (r & E); discriminate]|].
    cbn [has_prefix]. rewrite andb_true_iff, IH, Ascii.eqb_eq. split.
    + intros (-> & r & ->). now exists r.
    + intros (r & E). injection E as -> ->. split; eauto.
Qed.
Lemma index_of_some s t i : index_of s t = Some i <->
  has_prefix (skipn i s) t = true /\ i <= length s /\ forall j, j < i -> has_prefix (skipn j s) t = false.
Proof.
  revert i. induction s as [|c s IH]; intro i; cbn [index_of].
  - destruct (has_prefix [] t) eqn:H.
    + split.
      * intro E. injection E as <-. repeat split; auto. intros j L. lia.
      * intros (_ & L & _). cbn in L. f_equal. lia.
    + split; [discriminate|]. intros (H' & _). rewrite skipn_nil in H'. congruence.
  - destruct (has_prefix (c :: s) t) eqn:H.
    + split.
      * intro E. injection E as <-. repeat split; auto; [cbn; lia|]. intros j L. lia.
      * intros (_ & _ & F). destruct i; auto. specialize (F 0 ltac:(lia)). cbn [skipn] in F. congruence.
    + destruct i as [|i].
      * split; [destruct (index_of s t); discriminate|]. intros (H' & _). cbn [skipn] in H'. congruence.
      * transitivity (index_of s t = Some i).
        { destruct (index_of s t); cbn; split; congruence. }
        rewrite IH. cbn [skipn length]. split.
        -- intros (A & L & F). repeat split; auto; [lia|]. intros [|j] L'; [exact H|]. apply F. lia.
        -- intros (A & L & F). repeat split; auto; [lia|]. intros j L'. apply (F (S j)). lia.
Qed.
Lemma index_of_none s t : index_of s t = None <-> forall j, has_prefix (skipn j s) t = false.
Proof.
  induction s as [|c s IH]; cbn [index_of].
  - destruct (has_prefix [] t) eqn:H; split; intro; try discriminate; auto.
    + specialize (H0 0). cbn [skipn] in H0. congruence.
    + intro j. now rewrite skipn_nil.
  - destruct (has_prefix (c :: s) t) eqn:H.
    + split; [discriminate|]. intro F. specialize (F 0). cbn [skipn] in F. congruence.
    + transitivity (index_of s t = None); [destruct (index_of s t); cbn; split; congruence|].
      rewrite IH. split.
      * intros F [|j]; [exact H|apply F].
      * intros F j. apply (F (S j)).
Qed.

(** clean text in front of anything *)
Lemma symbols_clean_app a b : clean a -> symbols (a ++ b) = symbols a ++ symbols b.
Proof.
  intros (rs & F & ->). induction F as [|r rs S F IH]; [reflexivity|]. unfold encode_all in *. cbn [map concat].
  rewrite <- app_assoc, !symbols_encode by apply S. cbn [app]. now rewrite IH.
Qed.
Lemma clean_head t : clean t -> t <> [] -> forall r, bnd (t ++ r).
Proof. intros C N r. apply bnd_app; auto. now apply bnd_clean. Qed.

Lemma len_concat_symbols s pre post : symbols s = pre ++ post -> skipn (length (concat pre)) s = concat post /\ symbols (skipn (length (concat pre)) s) = post
  /\ length (concat pre) <= length s /\ s = concat pre ++ concat post.
Proof.
  intro E. apply symbols_split in E as (-> & _ & E). rewrite skipn_app, skipn_all, Nat.sub_diag. cbn. repeat split; auto.
  rewrite app_length. lia.
Qed.

Lemma has_prefix_symbols s t : clean t -> (has_prefix s t = true <-> exists y, symbols s = symbols t ++ y).
Proof.
  intro C. rewrite has_prefix_iff. split.
  - intros (r & ->). exists (symbols r). now apply symbols_clean_app.
  - intros (y & E). apply symbols_split in E as (E & _). rewrite concat_symbols in E. eauto.
Qed.

(** Number of symbols a one-item consumes. *)
Definition cnt (it : item) : nat :=
  match it with IStr t => length (symbols t) | IAny n => n | _ => 1 end.
Lemma den_cnt it w : one_item it -> den it w -> length w = cnt it.
Proof. destruct it; cbn; try easy; intros _; try (intros ->; reflexivity); auto. intros (x & -> & _). reflexivity. Qed.

Lemma app_len_inj {A} (a b c d : list A) : a ++ b = c ++ d -> length a = length c -> a = c /\ b = d.
Proof.
  revert c. induction a as [|x a IH]; intros [|y c] E L; cbn in *; try discriminate; auto.
  injection E as -> E. apply IH in E as [-> ->]; auto.
Qed.

Lemma symb_class rs s x : In x (symbols s) -> (symb rs x = true <-> class_symbol rs x).
Proof. apply symb_iff. Qed.

Lemma item_match_one u it s : wfi u it -> one_item it ->
  match item_match it s with
  | (Some off, fl) => fl = FindDone /\ exists x y, symbols s = x ++ y /\ den it x /\ off = length (concat x)
  | (None, fl) => fl = FindDone /\ forall x y, symbols s = x ++ y -> ~ den it x
  end.
Proof.
  intros W O. destruct it; try easy; cbn [item_match].
  - destruct (has_prefix s s0) eqn:E; split; auto.
    + apply has_prefix_symbols in E as (y & E); auto. exists (symbols s0), y. repeat split; auto. now rewrite concat_symbols.
    + intros x y E' D. cbn in D. subst x. assert (has_prefix s s0 = true) by (apply has_prefix_symbols; eauto). congruence.
  - cbn in W. destruct s as [|c s].
    + split; auto. intros x y E D. cbn in D. subst. discriminate.
    + destruct (Ascii.eqb_spec b c) as [->|N]; split; auto.
      * exists [[c]], (symbols s). rewrite symbols_ascii by auto. repeat split; auto.
      * intros x y E D. cbn in D. subst x. apply len_concat_symbols in E as (_ & _ & _ & E). cbn in E. congruence.
  - cbn in W. destruct (decode_rune s) as [c n] eqn:E. destruct (N.eqb_spec c RuneError) as [->|NR]; cbn [negb].
    + split; auto. intros x y E' D. cbn in D. subst x. apply len_concat_symbols in E' as (_ & _ & _ & E').
      cbn in E'. rewrite app_nil_r in E'. rewrite E', decode_encode in E by apply W. injection E as E _. destruct W. congruence.
    + destruct (N.eqb_spec c r) as [->|N]; split; auto.
      * destruct (encode_decode s r n E) as (V & -> & Es).
        { intros ->. cbn in E. congruence. } { unfold bad. cbn. tauto. }
        exists [encode_rune r], (symbols (skipn (length (encode_rune r)) s)). rewrite Es at 1. rewrite symbols_encode by auto.
        repeat split; auto. cbn. now rewrite app_nil_r.
      * intros x y E' D. cbn in D. subst x. apply len_concat_symbols in E' as (_ & _ & _ & E').
        cbn in E'. rewrite app_nil_r in E'. rewrite E', decode_encode in E by apply W. congruence.
  - rewrite skip_runes_symbols. destruct (n <=? length (symbols s)) eqn:L; split; auto.
    + exists (firstn n (symbols s)), (skipn n (symbols s)). rewrite firstn_skipn. repeat split; auto.
      cbn. rewrite firstn_length. unfold str in *. lia.
    + intros x y E D. cbn in D. rewrite E, app_length in L. unfold str in *. lia.
  - rewrite starts_with_eq. destruct (symbols s) as [|x t] eqn:E.
    + cbn [snd]. split; auto. intros x y E' (x' & -> & _). discriminate E'.
    + pose proof (symb_class rs s x) as S. rewrite E in S. specialize (S (or_introl eq_refl)).
      destruct (symb rs x); cbn [snd]; split; auto.
      * exists [x], t. repeat split; auto; [exists x; split; auto; now apply S|]. cbn. now rewrite app_nil_r.
      * intros a y E' (x' & -> & C). cbn in E'. injection E' as <- _. apply S in C. discriminate.
Qed.

(** first occurrence of a literal item *)
Definition occurs (it : item) (l : list str) (pre x y : list str) : Prop := l = pre ++ x ++ y /\ den it x.
Lemma find_text_spec s t : clean t ->
  match index_of s t with
  | Some off => exists pre y, symbols s = pre ++ symbols t ++ y /\ off = length (concat pre) /\
      forall pre' y', symbols s = pre' ++ symbols t ++ y' -> length pre <= length pre'
  | None => forall pre y, symbols s <> pre ++ symbols t ++ y
  end.
Proof.
  intro C. destruct (index_of s t) as [i|] eqn:E.
  - apply index_of_some in E as (H & L & F).
    apply has_prefix_iff in H as (r & H).
    destruct (list_eq_dec ascii_dec t []) as [->|Nt].
    + exists [], (symbols s). repeat split; auto.
      * destruct i; auto. specialize (F 0 ltac:(lia)). cbn [skipn] in F. now destruct s.
      * intros. cbn. lia.
    + exists (symbols (firstn i s)), (symbols r).
      assert (Es : s = firstn i s ++ t ++ r) by (rewrite <- H; symmetry; apply firstn_skipn).
      assert (B : bnd (t ++ r)) by now apply clean_head.
      repeat split.
      * rewrite Es at 1. rewrite symbols_app by auto. now rewrite symbols_clean_app.
      * rewrite concat_symbols, firstn_length_le; auto.
      * intros pre' y' E'.
        assert (i <= length (concat pre')).
        { destruct (Nat.le_gt_cases i (length (concat pre'))) as [|G]; auto. apply F in G.
          destruct (len_concat_symbols _ _ _ E') as (K & _). rewrite K in G.
          rewrite concat_app, concat_symbols in G. assert (has_prefix (t ++ concat y') t = true) by (apply has_prefix_iff; eauto). congruence. }
        destruct (len_concat_symbols _ _ _ E') as (_ & _ & _ & K).
        assert (P : exists z, pre' = symbols (firstn i s) ++ z).
        { assert (E1 : symbols s = symbols (firstn i s) ++ symbols t ++ symbols r).
          { rewrite Es at 1. rewrite symbols_app by auto. now rewrite symbols_clean_app. }
          rewrite E1 in E'. clear - E' H0 L. revert pre' E' H0. assert (LL : length (concat (symbols (firstn i s))) = i) by (rewrite concat_symbols; now apply firstn_length_le).
          revert LL. assert (NE : Forall (fun x => x <> []) (symbols (firstn i s))) by (apply Forall_forall; intros x; apply symbols_nonempty).
          revert NE. generalize (symbols (firstn i s)) as p. clear L. intros p. revert i. induction p as [|x p IH]; intros i NE LL pre' E' G.
          - now exists pre'.
          - inversion NE; subst. destruct pre' as [|z pre'].
            + cbn in G. rewrite app_length in G. destruct x; [easy|]. cbn in G. lia.
            + cbn in E'. injection E' as <- E'. cbn [concat] in G. rewrite !app_length in G.
              destruct (IH (length (concat p)) H2 eq_refl pre' E') as (q & ->); [lia|]. now exists q. }
        destruct P as (z & ->). rewrite app_length. lia.
  - rewrite index_of_none in E. intros pre y E'. specialize (E (length (concat pre))).
    destruct (len_concat_symbols _ _ _ E') as (K & _). rewrite K, concat_app, concat_symbols in E.
    assert (has_prefix (t ++ concat y) t = true) by (apply has_prefix_iff; eauto). congruence.
Qed.

Lemma index_byte_of s b : index_byte s b = index_of s [b].
Proof.
  unfold index_byte. induction s as [|c s IH]; [reflexivity|]. cbn [find_byte index_of has_prefix]. rewrite has_prefix_nil, andb_true_r.
  destruct (Ascii.eqb b c); auto. now rewrite IH.
Qed.
Lemma clean_byte b : (code b < 128)%N -> clean [b].
Proof.
  intro H. exists [code b]. split.
  - constructor; auto. split; [unfold valid_rune; lia|]. unfold RuneError. lia.
  - unfold encode_all. cbn [map concat]. now rewrite app_nil_r, string_byte_ascii.
Qed.
Lemma symbols_rune r : scalar r -> symbols (encode_rune r) = [encode_rune r].
Proof. intros [V _]. rewrite <- (app_nil_r (encode_rune r)) at 1. rewrite symbols_encode by auto. reflexivity. Qed.

Lemma after_found_inv len s sub : after_found len s = Some sub -> exists n, len = Some n /\ n <= length s /\ sub = skipn n s.
Proof. destruct len as [n|]; [|discriminate]. cbn [after_found]. destruct (Nat.leb_spec n (length s)); [|discriminate]. intro H0. injection H0 as <-. eauto. Qed.
Lemma after_found_ok n s : n <= length s -> after_found (Some n) s = Some (skipn n s).
Proof. intro H. cbn [after_found]. now rewrite (proj2 (Nat.leb_le n (length s)) H). Qed.
Lemma item_find_lit u it s : wfi u it -> literal_item it -> (u = true -> clean s) ->
  match item_find it s with
  | (Some off, Some n, fl) => fl = FindDone /\ exists pre x y, symbols s = pre ++ x ++ y /\ den it x /\
      off = length (concat pre) /\ n = length (concat x) /\
      forall pre' x' y', symbols s = pre' ++ x' ++ y' -> den it x' -> length pre <= length pre'
  | (Some off, None, fl) => False
  | (None, _, fl) => forall pre x y, symbols s = pre ++ x ++ y -> ~ den it x
  end.
Proof.
  intros W O Cs. destruct it; try easy; cbn [item_find].
  - pose proof (find_text_spec s s0 W) as F. destruct (index_of s s0).
    + split; auto. destruct F as (pre & y & E & -> & M). exists pre, (symbols s0), y. cbn. rewrite concat_symbols. repeat split; auto.
      intros pre' x' y' E' ->. eauto.
    + intros pre x y E D. cbn in D. subst. now apply F in E.
  - cbn in W. pose proof (find_text_spec s [b] (clean_byte b W)) as F.
    rewrite index_byte_of. rewrite symbols_ascii in F by auto. rewrite symbols_nil in F.
    destruct (index_of s [b]).
    + split; auto. destruct F as (pre & y & E & -> & M). exists pre, [[b]], y. cbn. repeat split; auto.
      intros pre' x' y' E' ->. eauto.
    + intros pre x y E D. cbn in D. subst. now apply F in E.
  - cbn in W. destruct W as [V NR]. pose proof (find_text_spec s (encode_rune r) (clean_encode r (conj V NR))) as F.
    rewrite symbols_rune in F by now split.
    assert (Ei : index_rune s r = index_of s (encode_rune r)).
    { unfold index_rune. destruct (r <? 128)%N eqn:A.
      - rewrite encode_ascii by lia. apply index_byte_of.
      - apply N.eqb_neq in NR. now rewrite NR, V. }
    rewrite Ei. rewrite <- encode_len_valid, Nat2Z.id by auto. destruct (index_of s (encode_rune r)).
    + split; auto. destruct F as (pre & y & E & -> & M). exists pre, [encode_rune r], y. cbn. rewrite app_nil_r. repeat split; auto.
      intros pre' x' y' E' ->. eauto.
    + intros pre x y E D. cbn in D. subst. now apply F in E.
  - destruct W as (Wu & _ & _). rewrite rr_index_eq.
    2:{ destruct u; auto. }
    destruct (sfind rs 0 (symbols s)) as [[[p r] n]|] eqn:E.
    + split; auto. apply sfind_some in E as (pre & x & post & E & -> & Sx & F & -> & ->).
      exists pre, [x], post. cbn. rewrite app_nil_r.
      assert (I : In x (symbols s)) by (rewrite E; apply in_app_iff; right; now left).
      repeat split; auto; [exists x; split; auto; eapply symb_class; eauto|].
      intros pre' x' y' E' (z & -> & C).
      destruct (Nat.le_gt_cases (length pre) (length pre')) as [|G]; auto. exfalso.
      assert (In z pre).
      { rewrite E in E'. clear - E' G. revert pre' E' G. induction pre as [|a pre IH]; intros [|b pre'] E' G; cbn in *; try lia.
        - injection E' as <- _. now left.
        - injection E' as <- E'. right. apply (IH pre'); auto. lia. }
      rewrite Forall_forall in F. specialize (F z H). assert (symb rs z = true); [|congruence].
      eapply symb_class; [|exact C]. rewrite E'. apply in_app_iff. right. apply in_app_iff. left. now left.
    + apply sfind_none in E. intros pre x y E' (z & -> & C). rewrite Forall_forall in E.
      assert (I : In z (symbols s)) by (rewrite E'; apply in_app_iff; right; now left).
      specialize (E z I). apply symb_class with (s := s) in C; auto. congruence.
Qed.
