(** Conformance with pkg/utils/{string,asciiset,runesranges}_test.go and
    pkg/items/{any,byte,rune,string,runesranges,stringlist,group}_test.go.  The expected values are copied
    from the test tables.  Tests of the model, not proofs. *)
From Verif Require Import Model.Items Conf.Base.

Definition r (s : str) : rune := fst (decode_rune s).
Definition set (s : str) : ascii_set := fst (make_ascii_set s).

(** utils/string_test.go: TestStringSkipRunes, TestStringSkipRunesLast *)
Example skip_runes_conf :
  forallb (fun '(s, n, want) => match skip_runes s n, want with
     | Some k, Some w => str_eqb (skipn k s) w | None, None => true | _, _ => false end)
  [(B "", 1, None); (B "ac", 2, Some (B "")); (B "", 0, Some (B "")); (B "aBcd", 2, Some (B "cd")); (B "ЯB界Cd", 3, Some (B "Cd"))] = true.
Proof. vm_compute. reflexivity. Qed.
Example skip_runes_last_conf :
  map (fun '(s, n) => skip_runes_last s n)
  [(B "", 1); (B "ac", 3); (B "ac", 2); (B "", 0); (B "aBcd", 2); (B "ЯB界Cd", 2); (B "ЯB界Cd", 3); (B "ЯB界Cd", 4); (B "ЯB界Cd", 5); (B "ЯB界Cd", 6)]
  = [None; None; Some 0; Some 0; Some 2; Some 6; Some 3; Some 2; Some 0; None].
Proof. vm_compute. reflexivity. Qed.

(** utils/asciiset_test.go: set, ok, String, StringAll, members, non-members *)
Example ascii_set_conf :
  forallb (fun '(s, ok, str, all, ins, outs) =>
    let '(a, k) := make_ascii_set s in
    Bool.eqb k ok && (negb ok || (str_eqb (as_write a) str && str_eqb (as_write_all a) all
      && forallb (as_contains a) ins && forallb (fun c => negb (as_contains a c)) outs)))
  [(B "aBzй", false, [], [], [], []); (B "aBz", true, B "Baz", B "Baz", B "azB", B "bZA");
   (B "acBbz", true, B "Ba-cz", B "Babcz", B "abczB", B "CZA"); (B "aBzz", true, B "Baz", B "Baz", B "azB", B "bZA")] = true.
Proof. vm_compute. reflexivity. Qed.
Example ascii_index_conf :
  map (as_index (set (B "aBz"))) [B "ABz"; B "aBz"; B "Abz"; B "AbZ"] = [Some 1; Some 0; Some 2; None] /\
  map (as_last_index (set (B "aBz"))) [B "ABz"; B "aBZ"; B "abZ"; B "AbZ"] = [Some 2; Some 1; Some 0; None].
Proof. vm_compute. split; reflexivity. Qed.
(** the benchmarks' expectation *)
Example ascii_index_bench : as_index (set (B "aBz")) (concat (repeat (B "Abcd") 20) ++ B "你好世, ЫВАЙz")
  = Some (length (concat (repeat (B "Abcd") 20) ++ B "你好世, ЫВАЙz") - 1).
Proof. vm_compute. reflexivity. Qed.

(** utils/runesranges_test.go: TestRunesRanges_Expand: text, ASCII members, ranges, MinSize, MaxSize, String, in, not in *)
Definition rr_cases : list (str * option (str * list (N * N) * Z * Z * str) * list str * list str) := [
  (B "[-q]", Some (B "q", [], 1%Z, 1%Z, B "[q]"), [B "q"], [B "Q"; B "b"; B "Я"]);
  (B "[a-c]", Some (B "abc", [], 1%Z, 1%Z, B "[a-c]"), [B "a"; B "b"; B "c"], [B "A"; B "e"; B "Я"]);
  (B "[a-cf]", Some (B "abcf", [], 1%Z, 1%Z, B "[a-cf]"), [B "a"; B "b"; B "c"; B "f"], [B "A"; B "d"; B "e"; B "j"; B "Я"]);
  (B "[za-c]", Some (B "abcz", [], 1%Z, 1%Z, B "[a-cz]"), [B "a"; B "b"; B "c"; B "z"], [B "A"; B "e"; B "j"; B "Я"]);
  (B "[a-czA-C]", Some (B "abcABCz", [], 1%Z, 1%Z, B "[A-Ca-cz]"), [B "a"; B "b"; B "c"; B "z"; B "A"; B "B"; B "C"], [B "E"; B "e"; B "j"; B "Я"]);
  (B "[a-czqj-mA-C]", Some (B "abcABCqzjklm", [], 1%Z, 1%Z, B "[A-Ca-cj-mqz]"), [B "a"; B "b"; B "c"; B "q"; B "j"; B "l"; B "m"; B "z"; B "A"; B "B"; B "C"], [B "E"; B "e"; B "i"; B "n"; B "Я"]);
  (B "[界Э-ЯW-Z]", Some (B "WXYZ", [(1069, 1071); (30028, 30028)]%N, 1%Z, 3%Z, B "[W-ZЭ-Я界]"), [B "W"; B "Y"; B "Z"; B "Э"; B "Ю"; B "Я"; B "界"], [B "E"; B "e"; B "i"; B "n"; B "П"; B "好"]);
  (B "[-]", Some (B "", [], 0%Z, 0%Z, B "[]"), [], [B "E"; B "e"; B "i"; B "n"; B "П"; B "好"]);
  (B "[a-]", Some (B "a", [], 1%Z, 1%Z, B "[a]"), [], []);
  (B "[-a-c]", Some (B "abc", [], 1%Z, 1%Z, B "[a-c]"), [], []);
  (B "[a-cb-ld-fa-c]", Some (B "abcdefghijkl", [], 1%Z, 1%Z, B "[a-l]"), [], []);
  (B "[1-32-45-76-78-95789]", Some (B "123456789", [], 1%Z, 1%Z, B "[1-9]"), [B "1"; B "2"; B "3"; B "4"; B "5"; B "6"; B "9"], [B "E"; B "e"; B "i"; B "n"; B "П"]);
  (B "[а-йв-у1-9b-dА-ДО-П你好世]",
   Some (B "123456789bcd", [(r (B "А"), r (B "Д")); (r (B "О"), r (B "П")); (r (B "а"), r (B "у")); (r (B "世"), r (B "世")); (r (B "你"), r (B "你")); (r (B "好"), r (B "好"))], 1%Z, 3%Z, B "[1-9b-dА-ДО-Па-у世你好]"),
   [B "1"; B "2"; B "3"; B "4"; B "5"; B "6"; B "9"; B "А"; B "Б"; B "П"; B "с"; B "你"], [B "E"; B "e"; B "i"; B "n"; B "Ы"]);
  (B "", None, [], []); (B "[a", None, [], []); (B "a]", None, [], []); (B "[z-a]", None, [], [])].
Example ranges_expand_conf :
  forallb (fun '(s, want, ins, outs) =>
    match ranges_expand s, want with
    | None, None => true
    | Some rs, Some (a, u, mn, mx, text) =>
        as_eqb (rr_ascii rs) (set a) && slice_equal range_eqb (rr_unicode rs) (map (fun p => mkRange (fst p) (snd p)) u)
        && negb (rr_need_merge rs) && Z.eqb (rr_min rs) mn && Z.eqb (rr_max rs) mx && str_eqb (rr_write rs) text
        && forallb (fun c => rr_contains rs (r c)) ins && forallb (fun c => negb (rr_contains rs (r c))) outs
    | _, _ => false
    end) rr_cases = true.
Proof. vm_compute. reflexivity. Qed.
(** TestRunesRanges_Contains *)
Example ranges_contains_conf :
  forallb (fun '(s, ins, outs) => let rs := rr_merge (rr_adds rr_empty s) in
     forallb (rr_contains rs) (map snd (range ins)) && forallb (fun c => negb (rr_contains rs c)) (map snd (range outs)))
  [(B "aBz你й", B "azBй你", B "bZAЫ"); (B "aBzz", B "azB", B "bZA")] = true.
Proof. vm_compute. reflexivity. Qed.
(** TestRunesRanges_Index *)
Example ranges_index_conf :
  map (fun '(s, c) => option_map (fun rs => (rr_starts_with rs s, rr_index rs s)) (ranges_expand c))
  [(B "aBz你й", B "[你й]"); (B "aBz你й", B "[a你й]"); (B "你йaBz", B "[a你й]"); (B "й你aBz", B "[a你й]")] =
  [Some ((RuneError, None), Some (3, r (B "你"), 3)); Some ((r (B "a"), Some 1), Some (0, r (B "a"), 1));
   Some ((r (B "你"), Some 3), Some (0, r (B "你"), 3)); Some ((r (B "й"), Some 2), Some (0, r (B "й"), 2))].
Proof. vm_compute. reflexivity. Qed.

(** pkg/items: item, subject, Match, Find (index, length), the rest *)
Definition class (s : str) : item := match ranges_expand s with Some rs => IRanges rs | None => IAny 0 end.
Definition flag_eqb (a b : flag) : bool :=
  match a, b with
  | FindNotSupported, FindNotSupported | FindDone, FindDone | FindForwarded, FindForwarded | FindList, FindList
  | FindStar, FindStar | FindGroup, FindGroup | FindChain, FindChain => true
  | _, _ => false
  end.
Definition onat_eqb (a b : option nat) : bool :=
  match a, b with Some x, Some y => Nat.eqb x y | None, None => true | _, _ => false end.
Definition item_cases : list (item * str * option nat * option (nat * nat * str) * flag * flag) := [
  (IAny 1, B "", None, None, FindDone, FindForwarded);
  (IAny 1, B "f", Some 1, Some (0, 1, B ""), FindDone, FindForwarded);
  (IAny 2, B "f", None, None, FindDone, FindForwarded);
  (IAny 2, B "af", Some 2, Some (0, 2, B ""), FindDone, FindForwarded);
  (IAny 3, B "Яz界Cd", Some 6, Some (0, 6, B "Cd"), FindDone, FindForwarded);
  (IByte "f", B "", None, None, FindDone, FindDone);
  (IByte "f", B "f", Some 1, Some (0, 1, B ""), FindDone, FindDone);
  (IByte "f", B "af", None, Some (1, 1, B ""), FindDone, FindDone);
  (IByte "C", B "ЯB界Cd", None, Some (6, 1, B "d"), FindDone, FindDone);
  (IRune (r (B "f")), B "", None, None, FindDone, FindDone);
  (IRune (r (B "f")), B "f", Some 1, Some (0, 1, B ""), FindDone, FindDone);
  (IRune (r (B "f")), B "af", None, Some (1, 1, B ""), FindDone, FindDone);
  (IRune (r (B "界")), B "ЯB界Cd", None, Some (3, 3, B "Cd"), FindDone, FindDone);
  (IRune (r (B "Я")), B "ЯB界Cd", Some 2, Some (0, 2, B "B界Cd"), FindDone, FindDone);
  (IStr (B ""), B "", Some 0, Some (0, 0, B ""), FindDone, FindDone);
  (IStr (B "f"), B "", None, None, FindDone, FindDone);
  (IStr (B "f"), B "f", Some 1, Some (0, 1, B ""), FindDone, FindDone);
  (IStr (B "f"), B "af", None, Some (1, 1, B ""), FindDone, FindDone);
  (IStr (B "界C"), B "ЯB界Cd", None, Some (3, 4, B "d"), FindDone, FindDone);
  (class (B "[f]"), B "", None, None, FindDone, FindDone);
  (class (B "[f]"), B "f", Some 1, Some (0, 1, B ""), FindDone, FindDone);
  (class (B "[f]"), B "af", None, Some (1, 1, B ""), FindDone, FindDone);
  (class (B "[界]"), B "ЯB界Cd", None, Some (3, 3, B "Cd"), FindDone, FindDone);
  (class (B "[ЯВ]"), B "ЯB界Cd", Some 2, Some (0, 2, B "B界Cd"), FindDone, FindDone);
  (class (B "[а-йв-у1-9b-dА-ДО-П你好世]"), B "ЗКйлМН", None, Some (4, 2, B "лМН"), FindDone, FindDone)].
Example items_conf :
  forallb (fun '(it, s, m, fd, mf, ff) =>
    let '(o, fl) := item_match it s in
    let '(i, n, fl') := item_find it s in
    onat_eqb o m && flag_eqb fl mf && flag_eqb fl' ff &&
    match i, fd with
    | None, None => true
    | Some i, Some (i', n', rest) => Nat.eqb i i' && onat_eqb n (Some n') && str_eqb (skipn (i + n') s) rest
    | _, _ => false
    end) item_cases = true.
Proof. vm_compute. reflexivity. Qed.

(** items/stringlist_test.go: Test_listExpand *)
Example list_expand_conf :
  map list_expand [B "{}"; B "{abc}"; B "{abc,z}"; B "{,abc}"; B "{abc,}"; B "{abc,,,q}"; B "{a,a}"; B "{a,b,a}"; B "{b,a,b}"; B "{b,a,b,z}"; B "{c,a,b,a,c,,z}"; B ""; B "{a,"; B "a}"]
  = [Some []; Some [B "abc"]; Some [B "abc"; B "z"]; Some [B ""; B "abc"]; Some [B ""; B "abc"]; Some [B ""; B "abc"; B "q"]; Some [B "a"]; Some [B "a"; B "b"];
     Some [B "a"; B "b"]; Some [B "a"; B "b"; B "z"]; Some [B ""; B "a"; B "b"; B "c"; B "z"]; None; None; None].
Proof. vm_compute. reflexivity. Qed.
(** NewItemList of an expanded list *)
Definition list_item (s : str) : res (option item) :=
  match list_expand s with Some vals => new_item_list next_wildcard_item vals | None => Err (ErrNodeMissmatch (B "list") s) end.
(** TestStringList: the items *)
Example list_items_conf :
  map list_item [B "{f,bc}"; B "{f,Яc}"; B "{f,bЯ}"; B "{f}"; B "{Я}"; B "{Яf}"; B "{}"]
  = [Ok (Some (IList (mkSList true (set (B "fb")) [B "bc"; B "f"] 1 2))); Ok (Some (IList (mkSList false as_empty [B "f"; B "Яc"] 1 3)));
     Ok (Some (IList (mkSList true (set (B "fb")) [B "bЯ"; B "f"] 1 3))); Ok (Some (IByte "f")); Ok (Some (IRune (r (B "Я")))); Ok (Some (IStr (B "Яf"))); Ok None].
Proof. vm_compute. reflexivity. Qed.
(** TestStringList: list, MatchFirst, MatchN, FindFirst, FindN *)
Definition list_cases : list (str * list (str * bool) * list (str * nat * option nat) * list (str * option nat) * list (str * nat * option nat)) := [
  (B "{f,bc}",
   [(B "find", true); (B "b", true); (B "c", false); (B "cb", false); (B "cf", false); (B "ФЫВz", false)],
   [(B "", 0, None); (B "fbci", 0, None); (B "bcfi", 0, Some 2); (B "fbci", 1, Some 1)],
   [(B "find", Some 0); (B "b", Some 0); (B "c", None); (B "cb", Some 1); (B "cf", Some 1); (B "Яb", Some 2); (B "de", None); (B "Яd", None)],
   [(B "", 0, None); (B "fbci", 0, Some 1); (B "fbci", 1, Some 0)]);
  (B "{f,Яc}",
   [(B "find", true); (B "b", true); (B "c", true); (B "cb", true); (B "cf", true); (B "ЯЫВz", true)],
   [(B "", 0, None); (B "fbci", 0, Some 1); (B "Яcfi", 0, None); (B "Яcfbci", 1, Some 3)],
   [(B "find", Some 0); (B "b", Some 0); (B "c", Some 0); (B "cb", Some 0); (B "cf", Some 0); (B "Яb", Some 0); (B "de", Some 0); (B "Яd", Some 0)],
   [(B "", 0, None); (B "fbci", 0, Some 0); (B "fbci", 1, None); (B "fЯcbci", 1, Some 1)]);
  (B "{f,bЯ}",
   [(B "find", true); (B "b", true); (B "bc", true); (B "bЯЫВz", true); (B "c", false); (B "cb", false); (B "cf", false); (B "ЯЫВz", false)],
   [(B "", 0, None); (B "Яcfbci", 0, None); (B "bЯcfbci", 0, Some 3); (B "Яcfi", 1, None); (B "fbci", 1, Some 1)],
   [(B "find", Some 0); (B "b", Some 0); (B "bD", Some 0); (B "cb", Some 1); (B "cf", Some 1); (B "bЯ", Some 0); (B "Яb", Some 2); (B "c", None); (B "de", None); (B "Яd", None)],
   [(B "", 0, None); (B "fbci", 0, None); (B "fЯcbci", 0, None); (B "fbЯbci", 0, Some 1); (B "fbci", 1, Some 0); (B "bЯfbci", 1, Some 3)])].
Example string_list_conf :
  forallb (fun '(s, mf, mn, ff, fn) =>
    match list_item s with
    | Ok (Some (IList l)) =>
        negb (sl_optional l)
        && forallb (fun '(t, b) => Bool.eqb (fst (sl_match_first l t)) b) mf
        && forallb (fun '(t, n, o) => onat_eqb (match_val t (nth n (sl_vals l) [])) o) mn
        && forallb (fun '(t, o) => onat_eqb (fst (sl_find_first l t)) o) ff
        && forallb (fun '(t, n, o) => onat_eqb (find_val t (nth n (sl_vals l) [])) o) fn
    | _ => false
    end) list_cases = true.
Proof. vm_compute. reflexivity. Qed.

(** items/group_test.go: TestNewGroup *)
Example new_group_conf :
  map (new_item_list next_wildcard_item)
    [[B "a"; B "*"]; [B "**"; B "*"]; [B "*??"; B "*?"]; [B "a"; B "b*"]; [B "a?cd*"; B "b*"; B "cde"]; [B "a?cd*"; B "b*"; B "cd[a-z]"]]
  = [Ok (Some (IStar 0)); Ok (Some (IStar 0)); Ok (Some (IGroup [IStar 2; IStar 1] 1 (-1)));
     Ok (Some (IGroup [IStr (B "a"); IChain [IByte "b"; IStar 0] 1 (-1)] 1 (-1)));
     Ok (Some (IGroup [IChain [IByte "a"; IAny 1; IStr (B "cd"); IStar 0] 4 (-1); IChain [IByte "b"; IStar 0] 1 (-1); IStr (B "cde")] 1 (-1)));
     Ok (Some (IGroup [IChain [IByte "a"; IAny 1; IStr (B "cd"); IStar 0] 4 (-1); IChain [IByte "b"; IStar 0] 1 (-1);
                       IChain [IStr (B "cd"); class (B "[a-z]")] 3 3] 1 (-1)))].
Proof. vm_compute. reflexivity. Qed.
