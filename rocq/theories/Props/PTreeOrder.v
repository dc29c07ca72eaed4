(** C42, C77: the order of registration, all globs. *)
From Coq Require Import Permutation.
From Verif Require Import Model.Tree Model.GGlob Model.GTags Spec.RegistrySpec Spec.GlobTreeSpec.
From Verif Require Import Proof.RegistryP Proof.GlobTreeP Proof.GlobTreeTop Proof.TreeEnd2P Proof.UseTop Proof.TreePermP.
From Verif Require Import Proof.TreePermTop.


(** C77: for a GlobTree this holds of all globs and all strings, any bytes: whenever Match returns on one of the trees it returns on
    the other, with the same count and the same reports in some order (a glob reported several times is reported as often). *)
Theorem c77_glob_all : forall (calls calls' : list (str * Z)) (gt : glob_tree) rs (E : list entry),
  run_adds gt_add gt_new calls = Ok (gt, rs) -> history gl_canon calls rs E -> length E = length calls -> Permutation calls calls' ->
  exists gt' rs' E', run_adds gt_add gt_new calls' = Ok (gt', rs') /\ history gl_canon calls' rs' E' /\ Permutation E E' /\
    forall f s l n, (gt_match f gt s = Ok (l, n) -> exists l', gt_match f gt' s = Ok (l', n) /\ Permutation l l') /\
                    (gt_match f gt' s = Ok (l, n) -> exists l', gt_match f gt s = Ok (l', n) /\ Permutation l l').
Proof. exact c77_glob_all_l. Qed.
Print Assumptions c77_glob_all.

Example c77_glob_all_example : let calls := [(B "{a?,b*}x*", 1%Z); (B "*a*", 2%Z); (B "{a?,b*}", 3%Z)] in let calls' := [(B "*a*", 2%Z); (B "{a?,b*}", 3%Z); (B "{a?,b*}x*", 1%Z)] in
  exists gt rs E gt' rs', run_adds gt_add gt_new calls = Ok (gt, rs) /\ history gl_canon calls rs E /\ length E = length calls /\ Permutation calls calls' /\ run_adds gt_add gt_new calls' = Ok (gt', rs') /\
  gt_match 50 gt (B "ba") = Ok ([(B "{a?,b*}", 3%Z); (B "*a*", 2%Z)], 2) /\ gt_match 50 gt' (B "ba") = Ok ([(B "*a*", 2%Z); (B "{a?,b*}", 3%Z)], 2).
Proof.
  intros calls calls'. destruct (c31_history_l calls) as (gt & rs & E & R & H & _).
  exists gt, rs, E. do 2 eexists. split; [exact R|]. split; [exact H|]. split; [vm_compute in R; injection R as <- <-; exact (history_ok_len _ _ _ _ H eq_refl)|].
  split; [exact (Permutation_cons_append [(B "*a*", 2%Z); (B "{a?,b*}", 3%Z)] (B "{a?,b*}x*", 1%Z))|]. split; [vm_compute; reflexivity|]. vm_compute in R. injection R as <- <-. split; vm_compute; reflexivity.
Qed.

(** C42: a GGlobTree keeps one glob for all parts that are normalised to the same text, the one that came first: after '*[?].x', which ends
    its first part with a question mark, the glob '*?.y' is not reported for a path that it matches. *)
Theorem c42_shared_refuted : exists gt rs, run_adds ggt_add ggt_new [(B "*[?].x", 1%Z); (B "*?.y", 2%Z)] = Ok (gt, rs) /\
  rs = [(B "*?.x", 1%Z, None); (B "*?.y", 2%Z, None)] /\ ggt_match gt (B "ab.y") = Ok ([], 0) /\
  exists g, gg_parse (B "*?.y") = Ok g /\ gg_match g (B "ab.y") = Ok true.
Proof. exact c42_shared_refuted_l. Qed.
Print Assumptions c42_shared_refuted.

(** C77: so the order matters when two different conditions or parts of globs are normalised to the same text: the first one decides. *)
Theorem c77_order_refuted :
  (exists gt gt' rs rs', run_adds ggt_add ggt_new [(B "*[?].x", 1%Z); (B "*?.y", 2%Z)] = Ok (gt, rs) /\ run_adds ggt_add ggt_new [(B "*?.y", 2%Z); (B "*[?].x", 1%Z)] = Ok (gt', rs') /\
     ggt_match gt (B "ab.y") = Ok ([], 0) /\ ggt_match gt' (B "ab.y") = Ok ([(B "*?.y", 2%Z)], 1)) /\
  (forall rx : regexps, exists gt gt' rs rs', run_adds (tg_add rx) tg_new [(B "seriesByTag('a=b*','c=1')", 1%Z); (B "seriesByTag('a={b*}')", 2%Z)] = Ok (gt, rs) /\
     run_adds (tg_add rx) tg_new [(B "seriesByTag('a={b*}')", 2%Z); (B "seriesByTag('a=b*','c=1')", 1%Z)] = Ok (gt', rs') /\
     tg_match_map rx gt [(B "a", B "bx")] = Ok ([(B "seriesByTag('a=b*')", 2%Z)], 1) /\ tg_match_map rx gt' [(B "a", B "bx")] = Ok ([], 0)).
Proof. exact c77_order_refuted_l. Qed.
Print Assumptions c77_order_refuted.
