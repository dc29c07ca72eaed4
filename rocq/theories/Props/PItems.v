(** C13-C19: glob items. *)
From Verif Require Import Model.Glob Spec.Symbols Spec.Class Spec.GlobSpec Spec.Lang Spec.Safe.
From Verif Require Import Proof.Utf8P Proof.SymbolsP Proof.SortP Proof.AsciiSetP Proof.SkipP Proof.MergeP Proof.RangesP Proof.ClassSearchP Proof.RangesTop Proof.LangP Proof.ListP Proof.ItemP Proof.DenotesP Proof.MatchP Proof.ParseP Proof.NextP Proof.GlobP Proof.GlobMatchP Proof.SafeP Proof.ItemEqP.
From Verif Require Import Proof.ItemTop.


(** C13: an item taken from a glob text (other than a star or a list) consumes exactly the prefix that the
    text it was taken from denotes; it fails exactly when there is no such prefix. *)
Theorem c13_match : forall (s : str) (it : item) (rest : str), clean s -> ~ In zero s -> plain_singles s ->
  next_wildcard_item s = Ok (Some it, rest) -> one_item it ->
  exists a, s = a ++ rest /\ forall t, snd (item_match it t) = FindDone /\
    forall n, fst (item_match it t) = Some n <-> exists x y, symbols t = x ++ y /\ denotes a x /\ n = length (concat x).
Proof. exact c13_match_l. Qed.
Print Assumptions c13_match.

From Verif Require Proof.CheckP.
(** The conditions on glob texts, decided by computation. *)
Lemma fine g : CheckP.clean_b g && CheckP.no_byte_b 0 g && CheckP.plain_singles_b g = true -> clean g /\ ~ In zero g /\ plain_singles g.
Proof. intro H. apply andb_true_iff in H as [H P]. apply andb_true_iff in H as [C N]. split; [now apply CheckP.clean_b_ok|]. split; [exact (CheckP.no_byte_ok 0 g N)|now apply CheckP.plain_singles_ok]. Qed.
Example c13_match_example : (exists it, next_wildcard_item (B "[a-cж]x*") = Ok (Some it, B "x*") /\ one_item it /\ item_match it (B "жz") = (Some 2, FindDone)) /\
  plain_singles (B "[a-cж]x*").
Proof.
  split; [eexists; split; [vm_compute; reflexivity|split; [exact I|vm_compute; reflexivity]]|]. intros a body b E. exfalso. assert (I : In "{"%char (B "[a-cж]x*")); [|repeat (destruct I as [I|I]; [discriminate|]); destruct I].
  rewrite E. apply in_or_app. right. now left.
Qed.

(** C13: Find of a literal, a symbol or a class returns the first occurrence and its length (for subjects
    without malformed bytes when a class of the text has several members and one beyond ASCII). *)
Theorem c13_find : forall (s : str) (it : item) (rest : str) (t : str), clean s -> ~ In zero s -> plain_singles s ->
  next_wildcard_item s = Ok (Some it, rest) -> literal_item it -> clean t \/ lone_classes s ->
  exists a, s = a ++ rest /\
    (forall off, fst (fst (item_find it t)) = Some off <->
       exists pre x y, symbols t = pre ++ x ++ y /\ denotes a x /\ off = length (concat pre) /\
         forall pre' x' y', symbols t = pre' ++ x' ++ y' -> denotes a x' -> length pre <= length pre') /\
    (forall off n, item_find it t = (Some off, n, FindDone) ->
       exists pre x y, symbols t = pre ++ x ++ y /\ denotes a x /\ off = length (concat pre) /\ n = Some (length (concat x))).
Proof. exact c13_find_l. Qed.
Print Assumptions c13_find.

Example c13_find_example : (clean (B "ж?") /\ ~ In zero (B "ж?") /\ plain_singles (B "ж?")) /\ literal_item (IRune 1078%N) /\ clean (B "abжcж") /\
  next_wildcard_item (B "ж?") = Ok (Some (IRune 1078%N), B "?") /\ item_find (IRune 1078%N) (B "abжcж") = (Some 2, Some 2, FindDone).
Proof. split; [now apply fine|]. split; [exact Logic.I|]. split; [now apply CheckP.clean_b_ok|]. split; vm_compute; reflexivity. Qed.

(** C13: a star with n '?' merged into it skips exactly n symbols and fails on shorter subjects. *)
Theorem c13_star : forall (k : nat) (t : str), snd (item_match (IStar k) t) = FindStar /\
  forall n, fst (item_match (IStar k) t) = Some n <-> exists x y, symbols t = x ++ y /\ length x = k /\ n = length (concat x).
Proof. exact c13_star_l. Qed.
Print Assumptions c13_star.

Example c13_star_example : item_match (IStar 2) (B "жab") = (Some 3, FindStar) /\ item_match (IStar 4) (B "жab") = (None, FindStar).
Proof. split; vm_compute; reflexivity. Qed.

(** C14: MatchLast of a literal text finds it at the end of the subject (byte-wise, any subject). *)
Theorem c14_text : forall t s : str, exists r, item_match_last (IStr t) s = Ok (r, FindDone) /\
  forall off, r = Some off <-> exists pre, s = pre ++ t /\ off = length pre.
Proof. exact c14_text_l. Qed.
Print Assumptions c14_text.

Example c14_text_example : item_match_last (IStr (B "bc")) (B "abc") = Ok (Some 1, FindDone) /\ item_match_last (IStr (B "bc")) (B "abd") = Ok (None, FindDone).
Proof. split; reflexivity. Qed.

(** C14: MatchLast of a single multi-byte symbol finds it as the last symbol of the subject. *)
Theorem c14_symbol : forall (r : rune) (s : str), scalar r -> exists o, item_match_last (IRune r) s = Ok (o, FindDone) /\
  forall off, o = Some off <-> exists pre, symbols s = pre ++ [encode_rune r] /\ off = length (concat pre).
Proof. exact c14_symbol_l. Qed.
Print Assumptions c14_symbol.

Example c14_symbol_example : scalar 1078%N /\ item_match_last (IRune 1078%N) (B "abж") = Ok (Some 2, FindDone).
Proof. split; [split; [reflexivity|discriminate]|vm_compute; reflexivity]. Qed.

(** C14 is false for a single ASCII symbol: 0 is returned instead of the offset, and the empty subject panics. *)
Theorem c14_byte_refuted : item_match_last (IByte "c") (B "abc") = Ok (Some 0, FindDone) /\ item_match_last (IByte "c") [] = Panic.
Proof. exact c14_byte_refuted_l. Qed.
Print Assumptions c14_byte_refuted.

(** C15: MinLen and MaxLen of an item taken from a glob text bound the length of every subject the text
    denotes; the upper bound for items in which no alternative has text after a star. *)
Theorem c15_bounds : forall (s : str) (it : item) (rest : str), clean s -> ~ In zero s -> plain_singles s ->
  next_wildcard_item s = Ok (Some it, rest) ->
  exists a, s = a ++ rest /\ forall t, denotes a (symbols t) ->
    (item_min it <= Z.of_nat (length t))%Z /\
    (sized it -> item_max it <> -1 -> Z.of_nat (length t) <= item_max it)%Z.
Proof. exact c15_bounds_l. Qed.
Print Assumptions c15_bounds.

Example c15_bounds_example : (clean (B "{aж,b?c}d") /\ ~ In zero (B "{aж,b?c}d") /\ plain_singles (B "{aж,b?c}d")) /\
  exists it, next_wildcard_item (B "{aж,b?c}d") = Ok (Some it, B "d") /\ sized it /\ item_min it = 3%Z /\ item_max it = 6%Z.
Proof.
  split; [now apply fine|]. eexists. split; [vm_compute; reflexivity|]. split; [|split; reflexivity].
  intros its mn mx k [I|[I|[]]] J; try discriminate. injection I as <- <- <-. destruct J as [J|[J|[J|[]]]]; discriminate.
Qed.

(** C15 is false in general: an alternative with text after a star gets a finite MaxLen. *)
Theorem c15_star_refuted : exists it, next_wildcard_item (B "{*a,b}") = Ok (Some it, []) /\
  item_max it = 1%Z /\ denotes (B "{*a,b}") (symbols (B "xxa")).
Proof. exact c15_star_refuted_l. Qed.
Print Assumptions c15_star_refuted.

(** C16: AppendItem: the new list matches exactly the concatenations of what the old list and the new item
    match. *)
Theorem c16_append : forall (l : list item) (it : item) (w : list str), Forall (wfi true) l -> wfi true it ->
  (dens (append_item l it) w <-> exists w1 w2, w = w1 ++ w2 /\ dens l w1 /\ den it w2).
Proof. exact c16_append_l. Qed.
Print Assumptions c16_append.

Example c16_append_example : append_item [IStar 0; IStr (B "ab")] (IRune 1078%N) = [IStar 0; IStr (B "abж")] /\
  append_item [IStr (B "ab"); IAny 2] (IStar 1) = [IStr (B "ab"); IStar 3].
Proof. split; vm_compute; reflexivity. Qed.

(** C16: the items, prefix and suffix of a parsed glob together mean what the text means. *)
Theorem c16_parse : forall (g : str) (gl : glob), clean g -> ~ In zero g -> plain_singles g -> glob_parse g = Ok gl ->
  forall w, denotes g w <->
    if null (g_items gl) then w = symbols (g_node gl)
    else exists w2, w = symbols (g_prefix gl) ++ w2 ++ symbols (g_suffix gl) /\ dens (g_items gl) w2.
Proof. exact c16_parse_l. Qed.
Print Assumptions c16_parse.

Example c16_parse_example : (clean (B "a?*?b[c]{d}*e[f]") /\ ~ In zero (B "a?*?b[c]{d}*e[f]") /\ plain_singles (B "a?*?b[c]{d}*e[f]")) /\
  exists gl, glob_parse (B "a?*?b[c]{d}*e[f]") = Ok gl /\ g_items gl = [IStar 2; IStr (B "bcd"); IStar 0] /\ g_prefix gl = B "a" /\ g_suffix gl = B "ef".
Proof. split; [now apply fine|]. eexists. split; [vm_compute; reflexivity|]. repeat split. Qed.

(** C16 is false for a Byte item above 0x7f (not produced by Parse): it is merged as a code point. *)
Theorem c16_high_byte_refuted : let b := byte_of 195 in append_item [IStr (B "a")] (IByte b) = [IStr (B "a" ++ [byte_of 195; byte_of 131])].
Proof. exact c16_high_byte_refuted_l. Qed.
Print Assumptions c16_high_byte_refuted.

(** C17: items that Equal calls equal match the same symbols. *)
Theorem c17_equal : forall a b : item, item_equal a b = true -> forall w, den a w <-> den b w.
Proof. exact c17_equal_l. Qed.
Print Assumptions c17_equal.

Example c17_equal_example : exists a b, next_wildcard_item (B "{a?,b*c,[d-f]x}") = Ok (Some a, []) /\ next_wildcard_item (B "{b*c,[edf]x,a?,a?}") = Ok (Some b, []) /\ item_equal a b = true.
Proof. do 2 eexists. split; [vm_compute; reflexivity|]. split; vm_compute; reflexivity. Qed.

(** C17: Equal is an equivalence, and equal items are printed alike. *)
Theorem c17_equivalence : (forall a : item, item_equal a a = true) /\ (forall a b : item, item_equal a b = true -> item_equal b a = true) /\
  (forall a b c : item, item_equal a b = true -> item_equal b c = true -> item_equal a c = true) /\
  (forall a b : item, item_equal a b = true -> item_write a = item_write b).
Proof. exact c17_equivalence_l. Qed.
Print Assumptions c17_equivalence.

(** C17: they also give the same Match and Find answers. *)
Theorem c17_equal_answers : forall a b : item, item_equal a b = true ->
  forall s, item_match a s = item_match b s /\ item_find a s = item_find b s.
Proof. exact c17_equal_answers_l. Qed.
Print Assumptions c17_equal_answers.

(** C18: ListExpand of a list with a body returns the distinct alternatives in strictly increasing order. *)
Theorem c18_list : forall body : str, body <> [] -> exists l, list_expand (braced body) = Some l /\
  (forall v, In v l <-> alternative body v) /\
  forall i j, i < j < length l -> byte_order (nth i l []) (nth j l []).
Proof. exact c18_list_l. Qed.
Print Assumptions c18_list.

Example c18_list_example : list_expand (B "{b,a,bc,a,,b}") = Some [B ""; B "a"; B "b"; B "bc"].
Proof. vm_compute. reflexivity. Qed.

(** C18: so order and repetition of the alternatives in the text do not matter. *)
Theorem c18_order : forall body body' : str, body <> [] -> body' <> [] ->
  (forall v, alternative body v <-> alternative body' v) -> list_expand (braced body) = list_expand (braced body').
Proof. exact c18_order_l. Qed.
Print Assumptions c18_order.

(** C18: the empty list expands to no values; anything that is not a list is refused. *)
Theorem c18_other : list_expand (braced []) = Some [] /\ forall s : str, (forall body, s <> braced body) -> list_expand s = None.
Proof. exact c18_other_l. Qed.
Print Assumptions c18_other.

(** C19: the first-symbol filters of a list never hide an alternative. *)
Theorem c19_first : forall (s : str) (l : slist) (rest : str), next_wildcard_item s = Ok (Some (IList l), rest) ->
  exists body, s = braced body ++ rest /\ forall v t, alternative body v -> v <> [] ->
    (sl_match_first l t = (false, true) -> forall y, t <> v ++ y) /\
    (sl_find_first l t = (None, true) -> forall x y, t <> x ++ v ++ y) /\
    (forall i, sl_find_first l t = (Some i, true) -> forall x y, t = x ++ v ++ y -> i <= length x).
Proof. exact c19_first_l. Qed.
Print Assumptions c19_first.

Example c19_first_example : exists l, next_wildcard_item (B "{ab,cd,}x") = Ok (Some (IList l), B "x") /\
  sl_match_first l (B "xcd") = (false, true) /\ sl_find_first l (B "xcd") = (Some 1, true) /\ sl_find_first l (B "xd") = (None, true).
Proof. eexists. split; [vm_compute; reflexivity|]. repeat match goal with |- _ /\ _ => split end; vm_compute; reflexivity. Qed.
