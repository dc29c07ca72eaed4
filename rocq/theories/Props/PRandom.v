(** C74: random strings. *)
From Verif Require Import Model.Random Spec.Symbols Spec.Class Spec.GlobSpec Spec.StarSpec Spec.Lang Spec.Safe.
From Verif Require Import Proof.Utf8P Proof.SymbolsP Proof.SortP Proof.AsciiSetP Proof.MergeP Proof.RangesP Proof.LangP Proof.ListP Proof.ItemP Proof.DenotesP Proof.ParseP Proof.NextP Proof.GlobP Proof.GlobMatchP Proof.SafeP Proof.PanicP Proof.WellP Proof.ItemTop Proof.GlobTop.
From Verif Require Import Proof.RandomTop.


(** C74: whatever the random numbers are, WriteRandom of a parsed glob does not panic, and what it writes is, put between
    the prefix and the suffix of the glob, a string the glob denotes; provided that no class has an ASCII member besides
    other members. *)
Theorem c74_random : forall (g : str) (gl : glob), clean g -> ~ In zero g -> plain_singles g -> ascii_classes_single g -> glob_parse g = Ok gl ->
  glob_random gl <> [] /\
  forall t, In t (glob_random gl) -> exists s, t = Ok s /\ denotes g (symbols (g_prefix gl ++ s ++ g_suffix gl)).
Proof. exact c74_random_l. Qed.
Print Assumptions c74_random.

Example c74_random_example : exists gl, glob_parse (B "a*{b,c?}[жшя]d") = Ok gl /\ g_prefix gl = B "a" /\ g_suffix gl = B "d" /\
  glob_random gl = [Ok (B "XXXXXXXXXbж"); Ok (B "XXXXXXXXXbш"); Ok (B "XXXXXXXXXbя"); Ok (B "XXXXXXXXXcxж"); Ok (B "XXXXXXXXXcxш"); Ok (B "XXXXXXXXXcxя")].
Proof. eexists. split; [vm_compute; reflexivity|]. repeat match goal with |- _ /\ _ => split end; vm_compute; reflexivity. Qed.

(** C74: so Match accepts it, if nothing is cut off the ends of the glob and matching is exact. *)
Theorem c74_matches : forall (g : str) (gl : glob) (s : str), clean g -> ~ In zero g -> plain_singles g -> ascii_classes_single g -> exact_lists g -> ~ only_star g ->
  glob_parse g = Ok gl -> g_prefix gl = [] -> g_suffix gl = [] -> In (Ok s) (glob_random gl) -> glob_match gl s = Ok true.
Proof. exact c74_matches_l. Qed.
Print Assumptions c74_matches.

From Verif Require Proof.CheckP Proof.RangesP.
Example c74_matches_example : let g := B "{b,c?}[жшя]?*" in
  (clean g /\ ~ In zero g /\ plain_singles g /\ ascii_classes_single g /\ exact_lists g /\ ~ only_star g) /\
  exists gl, glob_parse g = Ok gl /\ g_prefix gl = [] /\ g_suffix gl = [] /\ In (Ok (B "cxяxXXXXXXXXX")) (glob_random gl) /\ glob_match gl (B "cxяxXXXXXXXXX") = Ok true.
Proof.
  cbv zeta. split.
  - split; [now apply CheckP.clean_b_ok|]. split; [now apply (CheckP.no_byte_ok 0)|]. split; [now apply CheckP.plain_singles_ok|]. split; [|split; [now apply CheckP.exact_lists_ok|now apply CheckP.plain_not_star, CheckP.plain_classes_ok]].
    intros a body b r r' E N I _ L. exfalso. apply CheckP.bracketed_body in E; auto. vm_compute in E. destruct E as [E|[]]. injection E as _ <- _.
    change (in_class (B "жшя") r) in I. destruct (ranges_expand (bracketed (B "жшя"))) as [rs|] eqn:R; [|vm_compute in R; discriminate].
    destruct (RangesP.ranges_expand_ok (B "жшя") rs) as (_ & _ & _ & D); [now apply CheckP.clean_b_ok|exact R|]. apply D in I. vm_compute in R. injection R as <-.
    revert I. match goal with |- rr_contains ?rs _ = true -> _ => assert (A : forallb (fun k => negb (rr_contains rs (N.of_nat k))) (seq 0 128) = true) by (vm_compute; reflexivity) end.
    rewrite forallb_forall in A. specialize (A (N.to_nat r)). rewrite N2Nat.id in A. intro I. rewrite I in A. discriminate A. apply in_seq. lia.
  - eexists. split; [vm_compute; reflexivity|]. split; [reflexivity|]. split; [reflexivity|]. split; [vm_compute; tauto|vm_compute; reflexivity].
Qed.

(** C74: the literal text before the first and after the last wildcard is not written, *)
Theorem c74_prefix_refuted : exists gl, glob_parse (B "a*") = Ok gl /\ glob_random gl = [Ok (B "XXXXXXXXX")] /\ glob_match gl (B "XXXXXXXXX") = Ok false.
Proof. exact c74_prefix_refuted_l. Qed.
Print Assumptions c74_prefix_refuted.

(** ... all ASCII members of a class are written, *)
Theorem c74_class_refuted : exists gl, glob_parse (B "[abж]") = Ok gl /\ glob_random gl = [Ok (B "abж")] /\ glob_match gl (B "abж") = Ok false.
Proof. exact c74_class_refuted_l. Qed.
Print Assumptions c74_class_refuted.

(** ... and a class with ASCII members only makes it panic, always, wherever it stands. *)
Theorem c74_ascii_class_refuted : forall (gl : glob) (rs : rranges), In (IRanges rs) (g_items gl) -> rr_unicode rs = [] ->
  forall t, In t (glob_random gl) -> t = Panic.
Proof. exact c74_ascii_class_refuted_l. Qed.
Print Assumptions c74_ascii_class_refuted.

Example c74_ascii_class_example : exists gl rs, glob_parse (B "x?[a-c]*") = Ok gl /\ g_items gl = [IAny 1; IRanges rs; IStar 0] /\ rr_unicode rs = [] /\
  glob_random gl = [Panic].
Proof. do 2 eexists. split; [vm_compute; reflexivity|]. split; [cbn; reflexivity|]. split; vm_compute; reflexivity. Qed.
