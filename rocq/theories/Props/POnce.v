(** C93: trees that report a glob at most once. *)
From Verif Require Import Model.Tree Spec.Symbols Spec.GlobSpec Spec.Safe Spec.RegistrySpec Spec.GlobTreeSpec Spec.EndSpec Spec.OnceSpec.
From Verif Require Import Proof.SortP Proof.ListP Proof.DenotesP Proof.ParseP Proof.NextP Proof.SafeP Proof.PanicP Proof.RegistryP Proof.TreeInsP Proof.GlobTreeP Proof.GlobTreeTop Proof.CheckP Proof.UseTop Proof.OnceP.
From Verif Require Import Proof.OnceTop.


(** C93: after any calls of Add, when the accepted texts match in one way, Match stores no index twice, whatever the string. *)
Theorem c93_once : forall (calls : list (str * Z)) (gt : glob_tree) rs (E : list entry) (s : str) (f : nat) (l : list term) (n : nat),
  run_adds gt_add gt_new calls = Ok (gt, rs) -> history gl_canon calls rs E -> (forall e, In e E -> one_way (e_text e)) ->
  gt_match f gt s = Ok (l, n) -> NoDup (map snd l) /\ n = length l.
Proof. exact c93_once_l. Qed.
Print Assumptions c93_once.

(** C93: in the fragment of C21 Match then stores every accepted glob that matches and is no plain text exactly once, and returns how many there are. *)
Theorem c93_exact : forall (calls : list (str * Z)) (gt : glob_tree) rs (E : list entry) (s : str),
  run_adds gt_add gt_new calls = Ok (gt, rs) -> history gl_canon calls rs E -> (forall e, In e E -> one_way (e_text e)) ->
  (forall e, In e E -> tree_glob (e_text e)) -> clean s \/ (forall e, In e E -> lone_classes (e_text e)) ->
  exists f0 l, (forall f, f0 <= f -> gt_match f gt s = Ok (l, length l)) /\ NoDup l /\
    forall q i, In (q, i) l <-> exists e, In e E /\ e_node e = q /\ e_index e = i /\ ~ plain_text (e_text e) /\ denotes (e_text e) (symbols s).
Proof. exact c93_exact_l. Qed.
Print Assumptions c93_exact.

From Verif Require Proof.CheckP.
Lemma example_once_glob g : CheckP.node_glob_b g && CheckP.regular_b g && one_way_b g = true -> tree_glob g /\ one_way g.
Proof.
  intro H. apply andb_prop in H as [H O]. apply andb_prop in H as [H R]. split; [|now apply one_way_ok]. destruct (CheckP.node_glob_ok g H) as (C & Z & _ & P & _). split; [exact C|]. split; [exact Z|]. split; [exact P|now apply CheckP.regular_ok].
Qed.
Example c93_exact_example :
  let calls := [(B "a{b,c}?x*", 1%Z); (B "[ab]?{cd,e}*?", 2%Z); (B "ab{cd,e}", 3%Z); (B "a?**", 4%Z); (B "{ab,b}[c]?{e,ж}", 5%Z)] in
  exists gt rs E, run_adds gt_add gt_new calls = Ok (gt, rs) /\ history gl_canon calls rs E /\ used E 4%Z (B "a*?") /\ used E 5%Z (B "{ab,b}c?{e,ж}") /\
  (forall e, In e E -> tree_glob (e_text e) /\ one_way (e_text e)) /\ clean (B "abcdж") /\
  gt_match 40 gt (B "abcdж") = Ok ([(B "a*?", 4%Z); (B "[a-b]?{cd,e}*?", 2%Z); (B "{ab,b}c?{e,ж}", 5%Z)], 3) /\ gt_match 40 gt (B "abcd") = Ok ([(B "a*?", 4%Z); (B "ab{cd,e}", 3%Z)], 2).
Proof.
  set (calls := [(B "a{b,c}?x*", 1%Z); (B "[ab]?{cd,e}*?", 2%Z); (B "ab{cd,e}", 3%Z); (B "a?**", 4%Z); (B "{ab,b}[c]?{e,ж}", 5%Z)]). cbv zeta.
  destruct (c31_history_l calls) as (gt & rs & E & R & H & D & K & U).
  exists gt, rs, E. split; [exact R|]. split; [exact H|].
  split; [apply U; vm_compute in R; injection R as <- <-; reflexivity|]. split; [apply U; vm_compute in R; injection R as <- <-; reflexivity|]. split; [|split; [apply CheckP.clean_b_ok; vm_compute; reflexivity|]].
  - intros e I. apply (history_texts _ _ _ _ H) in I. repeat (destruct I as [I|I]; [injection I as <- _; apply example_once_glob; vm_compute; reflexivity|]). destruct I.
  - vm_compute in R. injection R as <- <-. split; vm_compute; reflexivity.
Qed.

(** C93: within these bounds further calls of Add never change whether an earlier glob is stored. *)
Theorem c93_later : forall (calls more : list (str * Z)) (gt gt' : glob_tree) rs rs' (E E' : list entry) (s : str),
  run_adds gt_add gt_new calls = Ok (gt, rs) -> history gl_canon calls rs E ->
  run_adds gt_add gt_new (calls ++ more) = Ok (gt', rs') -> history gl_canon (calls ++ more) rs' E' -> (forall e, In e E' -> one_way (e_text e)) ->
  (forall e, In e E' -> tree_glob (e_text e)) -> clean s \/ (forall e, In e E' -> lone_classes (e_text e)) ->
  exists f0 l l', (forall f, f0 <= f -> gt_match f gt s = Ok (l, length l) /\ gt_match f gt' s = Ok (l', length l')) /\
    forall e, In e E -> In e E' /\ (In (e_node e, e_index e) l <-> In (e_node e, e_index e) l').
Proof. exact c93_later_l. Qed.
Print Assumptions c93_later.

(** C93: lists with a value that begins another, and lists with wildcards in their values, are stored several times. *)
Theorem c93_lists_refuted : (exists gt, gt_add gt_new (B "{a,ab}{bc,c}") 1 = Ok (gt, (B "{a,ab}{bc,c}", 1%Z, None)) /\
    gt_match 20 gt (B "abc") = Ok ([(B "{a,ab}{bc,c}", 1%Z); (B "{a,ab}{bc,c}", 1%Z)], 2)) /\
  (exists gt, gt_add gt_new (B "{a,?}") 1 = Ok (gt, (B "{?,a}", 1%Z, None)) /\
    gt_match 20 gt (B "a") = Ok ([(B "{?,a}", 1%Z); (B "{?,a}", 1%Z)], 2)).
Proof. exact c93_lists_refuted_l. Qed.
Print Assumptions c93_lists_refuted.
