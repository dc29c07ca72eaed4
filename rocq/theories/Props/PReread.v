(** C78: reading the canonical text again. *)
From Verif Require Import Model.GGlob Spec.Symbols Spec.Class Spec.GlobSpec Spec.Same Spec.Neat Spec.PathSpec Spec.GGlobSpec.
From Verif Require Import Proof.Utf8P Proof.SymbolsP Proof.SortP Proof.ListP Proof.ItemP Proof.DenotesP Proof.ParseP Proof.NextP Proof.GlobP Proof.GlobMatchP Proof.OrderP Proof.NodeP Proof.PathP Proof.GGlobP Proof.ItemTop Proof.GlobTop Proof.NodeTop Proof.RereadP Proof.RereadGP.
From Verif Require Import Props.PNode.
From Verif Require Import Proof.RereadTop.


(** C78: parsing the normalised text of a parsed glob succeeds and gives the same glob: the same normalised text,
    bounds, prefix, suffix, values and items. *)
Theorem c78_again : forall (g : str) (gl : glob), neat g -> glob_parse g = Ok gl -> same_parse (glob_parse (g_node gl)) (Ok gl).
Proof. exact c78_again_l. Qed.
Print Assumptions c78_again.

From Verif Require Import Props.PNode.
Example c78_again_example : let g := B "x{b?,a}[a-cb]**?y" in
  neat g /\ exists gl, glob_parse g = Ok gl /\ g_node gl = B "x{a,b?}[a-c]*?y" /\ g_node gl <> g /\ length (g_items gl) = 3.
Proof.
  cbv zeta. split.
  - pose proof c28_node_example as X. cbv zeta in X. destruct X as (C & P & Q & _). split; [exact C|]. split; [nin|]. split; [nin|]. split; [exact P|]. split; [exact Q|]. split.
    + intros a body b E N.
      assert (Eb : body = B "a-cb").
      { unfold bracketed in E. rewrite <- app_comm_cons, <- app_assoc in E. cbn [app] in E.
        repeat (destruct a as [|? a]; cbn [app] in E; [try discriminate E|first [discriminate E|injection E as <- E]]).
        injection E as E. change (B "a-cb" ++ "]"%char :: B "**?y" = body ++ "]"%char :: b) in E. apply cut_unique in E as [<- <-]; auto. nin. }
      subst body.
      assert (X : forall r, in_class (B "a-cb") r -> (97 <= r <= 99)%N).
      { intros r I. change (B "a-cb") with (encode_all [97; 45; 99; 98]%N) in I. apply (in_class_pairs _ [(97, 99); (98, 98)]%N) in I.
        - destruct I as (x & y & [I|[I|[]]] & L); injection I as <- <-; lia.
        - repeat constructor; discriminate.
        - apply (cp_range 97%N [45]%N 99%N [98]%N); try discriminate; [repeat constructor|]. apply cp_last; [discriminate|constructor]. }
      split; intros [I _]; apply X in I; lia.
    + intros a body b E N.
      assert (Eb : body = B "b?,a").
      { unfold braced in E. rewrite <- app_comm_cons, <- app_assoc in E. cbn [app] in E.
        repeat (destruct a as [|? a]; cbn [app] in E; [try discriminate E|first [discriminate E|injection E as <- E]]).
        injection E as E. change (B "b?,a" ++ "}"%char :: B "[a-cb]**?y" = body ++ "}"%char :: b) in E. apply cut_unique in E as [<- <-]; auto. nin. }
      subst body. split; [nin|]. split; intros x y E'; repeat (destruct x as [|? x]; cbn in E'; [discriminate E'|first [discriminate E'|injection E' as <- E']]).
  - eexists. split; [vm_compute; reflexivity|]. split; [reflexivity|]. split; [discriminate|reflexivity].
Qed.

(** C78: and so it gives the same answer for every string, malformed ones included. *)
Theorem c78_match : forall (g : str) (gl : glob), neat g -> glob_parse g = Ok gl ->
  exists gl2, glob_parse (g_node gl) = Ok gl2 /\ g_node gl2 = g_node gl /\ forall s, glob_match gl2 s = glob_match gl s.
Proof. exact c78_match_l. Qed.
Print Assumptions c78_match.

Example c78_match_example : exists gl gl2, glob_parse (B "x{b?,a}[a-cb]**?y") = Ok gl /\ glob_parse (g_node gl) = Ok gl2 /\
  glob_match gl2 (B "xaczzzzy") = Ok true /\ glob_match gl (B "xaczzzzy") = Ok true.
Proof. do 2 eexists. split; [vm_compute; reflexivity|]. split; [vm_compute; reflexivity|]. split; vm_compute; reflexivity. Qed.

(** C78, dotted globs: if no part is normalised to the empty text, the normalised text is parsed to the same parts,
    normalised text and bounds. *)
Theorem c78_gglob : forall (text : str) (g : gglob), (forall parts, accepted_parts text parts -> Forall neat parts) ->
  gg_parse text = Ok g -> ~ In [] (map g_node (gg_parts g)) ->
  exists g2, gg_parse (gg_node g) = Ok g2 /\ gg_node g2 = gg_node g /\ gg_min g2 = gg_min g /\ gg_max g2 = gg_max g /\
    Forall2 (fun x y => same_parse (Ok x) (Ok y)) (gg_parts g2) (gg_parts g).
Proof. exact c78_gglob_l. Qed.
Print Assumptions c78_gglob.

Example c78_gglob_example : let t := B "a.x{b?,a}[a-cb]**?y.b." in
  (forall parts, accepted_parts t parts -> Forall neat parts) /\ exists g, gg_parse t = Ok g /\ gg_node g = B "a.x{a,b?}[a-c]*?y.b" /\ ~ In [] (map g_node (gg_parts g)).
Proof.
  cbv zeta. split.
  - intros parts A. apply accepted_iff in A as (D & F & T); [|discriminate].
    assert (E : dotted parts = B "a.x{b?,a}[a-cb]**?y.b").
    { destruct T as [T|[N T]]; [now rewrite <- T|]. exfalso. apply (f_equal (@rev ascii)) in T. rewrite rev_app_distr in T. discriminate T. }
    assert (parts <> []) by (intros ->; discriminate E).
    apply (f_equal (split_on dot)) in E. rewrite split_dotted in E by auto. vm_compute in E. subst parts.
    assert (L : forall c, (code c < 128)%N -> code c <> 0%N -> code c <> 127%N -> ~ In c metas -> neat [c]).
    { intros c L1 L2 L3 M. split; [now apply clean_byte|]. split; [intros [X|[]]; apply L2; rewrite X; reflexivity|]. split; [intros [X|[]]; apply L3; rewrite X; reflexivity|].
      assert (NB : forall o body d b a, In o metas -> [c] <> a ++ (o :: body ++ [d]) ++ b).
      { intros o body d b a I E. apply M. destruct a as [|x [|y a]]; [injection E as -> _; exact I|discriminate|discriminate]. }
      split; [intros a body b E; exfalso; apply (NB "{"%char body "}"%char b a); [cbn; tauto|exact E]|].
      split; [intros a body b d E; exfalso; apply (NB "["%char body "]"%char b a); [cbn; tauto|exact E]|].
      split; [intros a body b E; exfalso; apply (NB "["%char body "]"%char b a); [cbn; tauto|exact E]|].
      intros a body b E; exfalso; apply (NB "{"%char body "}"%char b a); [cbn; tauto|exact E]. }
    constructor; [apply L; try discriminate; try reflexivity; nin|]. constructor; [exact (proj1 c78_again_example)|]. constructor; [apply L; try discriminate; try reflexivity; nin|constructor].
  - eexists. split; [vm_compute; reflexivity|]. split; [reflexivity|]. cbn. intros [X|[X|[X|[]]]]; discriminate.
Qed.

(** C78 fails without the conditions: classes in list values, when normalised, change the order of the values or make
    two of them equal; a '?' before a star moves behind it. *)
Theorem c78_lists_refuted :
  (exists gl gl2, glob_parse (B "{[ab]x,[a]y}") = Ok gl /\ g_node gl = B "{ay,[a-b]x}" /\ glob_parse (g_node gl) = Ok gl2 /\ g_node gl2 = B "{[a-b]x,ay}") /\
  (exists gl gl2, glob_parse (B "{[a],a,b?}") = Ok gl /\ g_node gl = B "{a,a,b?}" /\ glob_parse (g_node gl) = Ok gl2 /\ g_node gl2 = B "{a,b?}") /\
  (exists gl gl2, glob_parse (B "{?*x,+}") = Ok gl /\ g_node gl = B "{+,*?x}" /\ glob_parse (g_node gl) = Ok gl2 /\ g_node gl2 = B "{*?x,+}").
Proof. exact c78_lists_refuted_l. Qed.
Print Assumptions c78_lists_refuted.

(** C78 fails for a list of one value with wildcards and for a class of one wildcard character: the normalised text has another
    meaning. *)
Theorem c78_literal_refuted :
  (exists gl gl2, glob_parse (B "a{?}") = Ok gl /\ g_node gl = B "a?" /\ glob_parse (g_node gl) = Ok gl2 /\ glob_match gl (B "ab") = Ok false /\ glob_match gl2 (B "ab") = Ok true) /\
  (exists gl gl2, glob_parse (B "a[?]") = Ok gl /\ g_node gl = B "a?" /\ glob_parse (g_node gl) = Ok gl2 /\ glob_match gl (B "ab") = Ok false /\ glob_match gl2 (B "ab") = Ok true).
Proof. exact c78_literal_refuted_l. Qed.
Print Assumptions c78_literal_refuted.

(** C78 fails for classes with members on both sides of a change of the encoded length, and for a part without text: the normalised text is
    rejected. *)
Theorem c78_rejected_refuted :
  (exists gl, glob_parse (bracketed (encode_rune 2047%N ++ encode_rune 2048%N)) = Ok gl /\ exists e, glob_parse (g_node gl) = Err e) /\
  (exists g, gg_parse (B "a.{}.b") = Ok g /\ gg_node g = B "a..b" /\ exists e, gg_parse (gg_node g) = Err e).
Proof. exact c78_rejected_refuted_l. Qed.
Print Assumptions c78_rejected_refuted.
