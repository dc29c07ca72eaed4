(** C89: the common beginning of strings. *)
From Verif Require Import Model.Common Spec.Symbols Spec.CommonSpec Proof.Utf8P Proof.SymbolsP Proof.DenotesP Proof.CheckP.
From Verif Require Import Proof.CommonTop.


(** C89: of well-formed strings, interceptionLeft returns the longest well-formed text that all of them begin with. *)
Theorem c89_longest : forall l : list str, l <> [] -> (forall s, In s l -> clean s) -> exists p, interception_left l = Ok p /\ longest_common p l.
Proof. exact c89_longest_l. Qed.
Print Assumptions c89_longest.

Example c89_longest_example : (forall s, In s [B "aжxy"; B "aжxz"; B "aжx"] -> clean s) /\ interception_left [B "aжxy"; B "aжxz"; B "aжx"] = Ok (B "aжx") /\
  interception_left [B "яb"; B "юb"] = Ok [] /\ (exists c, begins [c] (B "яb") /\ begins [c] (B "юb")).
Proof.
  split; [intros s [<-|[<-|[<-|[]]]]; apply clean_b_ok; vm_compute; reflexivity|]. split; [vm_compute; reflexivity|]. split; [vm_compute; reflexivity|].
  eexists. split; [eexists; reflexivity|]. eexists. vm_compute. reflexivity.
Qed.

(** C89 is false of malformed strings: different malformed bytes count as the same symbol, and if one string is shorter the call panics. *)
Theorem c89_malformed_refuted : interception_left [[byte_of 255]; [byte_of 254]] = Ok [byte_of 255] /\ ~ begins [byte_of 255] [byte_of 254] /\
  interception_left [encode_rune 65533%N ++ B "x"; [byte_of 255]] = Panic.
Proof. exact c89_malformed_refuted_l. Qed.
Print Assumptions c89_malformed_refuted.
