(** The statements of Props/PCommon.v. *)
From Coq Require Import Lia ZifyBool ZifyN ZifyNat.
From Verif Require Import Model.Common Spec.Symbols Spec.CommonSpec Proof.Utf8P Proof.SymbolsP Proof.DenotesP Proof.CheckP.

(** What a well-formed rest looks like at its first symbol. *)
Lemma rest_case t : clean t -> t = [] \/ exists r t', scalar r /\ clean t' /\ t = encode_rune r ++ t'.
Proof. intros ([|r rs] & F & ->); [now left|]. right. inversion F; subst. exists r, (encode_all rs). split; auto. split; [now exists rs|reflexivity]. Qed.
(** A well-formed beginning of p followed by one symbol and more ends within p or contains the symbol. *)
Lemma next_symbol p q r t : clean q -> clean p -> scalar r -> begins q (p ++ encode_rune r ++ t) -> begins q p \/ begins (p ++ encode_rune r) q.
Proof.
  intros (qs & Fq & ->) (ps & Fp & ->) Sr (u & E). revert qs Fq E. induction Fp as [|x ps Sx Fp IH]; intros qs Fq E.
  - destruct Fq as [|y qs Sy Fq]; [left; exists []; reflexivity|]. right. cbn [encode_all map concat app] in *. unfold encode_all in E. cbn [map concat] in E. rewrite <- app_assoc in E.
    apply encode_app_inj in E as [-> _]; [|apply Sr|apply Sy]. exists (encode_all qs). reflexivity.
  - destruct Fq as [|y qs Sy Fq]; [left; exists (encode_all (x :: ps)); reflexivity|]. unfold encode_all in E. cbn [map concat] in E. rewrite <- !app_assoc in E.
    apply encode_app_inj in E as [-> E]; [|apply Sx|apply Sy]. destruct (IH qs Fq E) as [(v & V)|(v & V)]; [left|right]; exists v; unfold encode_all in *; cbn [map concat].
    + rewrite V. now rewrite <- app_assoc.
    + rewrite V. now rewrite <- !app_assoc.
Qed.
Lemma goes_on_ok p r rest : scalar r -> (forall s, In s rest -> exists t, clean t /\ s = p ++ t) ->
  exists b, goes_on (length p) r rest = Ok b /\ (b = true <-> forall s, In s rest -> exists t, clean t /\ s = p ++ encode_rune r ++ t).
Proof.
  intro Sr. induction rest as [|s rest IH]; intro H; cbn [goes_on]; [exists true; split; auto; easy|].
  destruct (H s (or_introl eq_refl)) as (t & C & ->). rewrite app_length. replace (length p + length t <? length p)%nat with false by lia.
  rewrite skipn_app, skipn_all, Nat.sub_diag. cbn [app skipn].
  destruct (rest_case t C) as [->|(r' & t' & Sr' & C' & ->)].
  - cbn [length]. replace (Nat.eqb (length p) (length p + 0)) with true by lia. exists false. split; auto. split; [discriminate|]. intro X. destruct (X _ (or_introl eq_refl)) as (t & _ & E).
    apply app_inv_head in E. symmetry in E. apply app_eq_nil in E as [E _]. now apply encode_nonempty in E.
  - rewrite app_length. pose proof (encode_len_pos r'). replace (Nat.eqb (length p) _) with false by lia. rewrite decode_encode by apply Sr'. cbn [fst].
    destruct (N.eqb_spec r r') as [<-|Ne].
    + destruct IH as (b & E & Hb); [intros; apply H; now right|]. exists b. split; auto. rewrite Hb. split; intros X s I; [|apply X; now right].
      destruct I as [<-|I]; [exists t'; auto|now apply X].
    + exists false. split; auto. split; [discriminate|]. intro X. destruct (X _ (or_introl eq_refl)) as (t & _ & E). apply app_inv_head in E. apply encode_app_inj in E as [E _]; [congruence|apply Sr'|apply Sr].
Qed.
Lemma left_loop_ok rest rs : Forall scalar rs -> forall p f, clean p -> length (encode_all rs) <= f -> (forall s, In s rest -> exists t, clean t /\ s = p ++ t) ->
  exists x, left_loop (p ++ encode_all rs) (range_from f (length p) (encode_all rs)) rest = Ok x /\ longest_common x ((p ++ encode_all rs) :: rest).
Proof.
  induction 1 as [|r rs Sr F IH]; intros p f C L H.
  - cbn [encode_all map concat]. replace (range_from f (length p) []) with (@nil (nat * rune)) by now destruct f. exists (p ++ []). split; [reflexivity|]. rewrite app_nil_r. split; auto. split.
    + intros s [<-|I]; [exists []; now rewrite app_nil_r|]. destruct (H s I) as (t & _ & ->). now exists t.
    + intros q _ X. apply X. now left.
  - change (encode_all (r :: rs)) with (encode_rune r ++ encode_all rs) in *. pose proof (encode_len_pos r). rewrite app_length in L. destruct f as [|f]; [lia|]. cbn [range_from].
    destruct (encode_rune r ++ encode_all rs) as [|c0 u] eqn:Eu; [exfalso; apply app_eq_nil in Eu as [Eu _]; now apply encode_nonempty in Eu|]. rewrite <- Eu.
    rewrite decode_encode by apply Sr. cbn [left_loop]. rewrite skipn_app, skipn_all, Nat.sub_diag. cbn [app skipn].
    destruct (goes_on_ok p r rest Sr H) as (b & -> & Hb). cbn [bind]. destruct b.
    + specialize (IH (p ++ encode_rune r) f). rewrite <- app_assoc, app_length in IH. apply IH; [|lia|].
      * apply clean_app; auto. exists [r]. split; [auto|]. unfold encode_all. cbn. now rewrite app_nil_r.
      * intros s I. destruct (proj1 Hb eq_refl s I) as (t & Ct & ->). exists t. split; auto. now rewrite <- app_assoc.
    + exists p. split; [f_equal; now rewrite firstn_app, firstn_all, Nat.sub_diag, app_nil_r|]. split; auto. split.
      * intros s [<-|I]; [now eexists|]. destruct (H s I) as (t & _ & ->). now exists t.
      * intros q Cq X. destruct (next_symbol p q r (encode_all rs) Cq C Sr (X _ (or_introl eq_refl))) as [|(v & ->)]; auto. exfalso. assert (false = true); [|discriminate]. apply Hb.
        intros s I. destruct (H s I) as (t & Ct & ->), (X _ (or_intror I)) as (w & E). rewrite <- !app_assoc in E. apply app_inv_head in E. subst t.
        destruct (rest_case _ Ct) as [E|(r' & t' & Sr' & C' & E)]; [exfalso; apply app_eq_nil in E as [E _]; now apply encode_nonempty in E|].
        apply encode_app_inj in E as [<- ->]; [|apply Sr|apply Sr']. exists t'. auto.
Qed.

(** C89: of well-formed strings, interceptionLeft returns the longest well-formed text that all of them begin with. *)
Lemma c89_longest_l : forall l : list str, l <> [] -> (forall s, In s l -> clean s) -> exists p, interception_left l = Ok p /\ longest_common p l.
Proof.
  intros [|s [|s2 rest]] N C; [easy| |].
  - exists s. split; [reflexivity|]. split; [apply C; now left|]. split; [intros x [<-|[]]; exists []; now rewrite app_nil_r|]. intros q _ X. apply X. now left.
  - destruct (C s (or_introl eq_refl)) as (rs & F & ->). destruct (left_loop_ok (s2 :: rest) rs F [] (length (encode_all rs)) ltac:(apply clean_nil) ltac:(lia)) as (x & E & Lx); [|exists x; split; [exact E|exact Lx]].
    intros s I. exists s. split; auto. apply C. now right.
Qed.
(*EX
Example c89_longest_example : (forall s, In s [B "aжxy"; B "aжxz"; B "aжx"] -> clean s) /\ interception_left [B "aжxy"; B "aжxz"; B "aжx"] = Ok (B "aжx") /\
  interception_left [B "яb"; B "юb"] = Ok [] /\ (exists c, begins [c] (B "яb") /\ begins [c] (B "юb")).
Proof.
  split; [intros s [<-|[<-|[<-|[]]]]; apply clean_b_ok; vm_compute; reflexivity|]. split; [vm_compute; reflexivity|]. split; [vm_compute; reflexivity|].
  eexists. split; [eexists; reflexivity|]. eexists. vm_compute. reflexivity.
Qed.
XE*)
(** C89 is false of malformed strings: different malformed bytes count as the same symbol, and if one string is shorter the call panics. *)
Lemma c89_malformed_refuted_l : interception_left [[byte_of 255]; [byte_of 254]] = Ok [byte_of 255] /\ ~ begins [byte_of 255] [byte_of 254] /\
  interception_left [encode_rune 65533%N ++ B "x"; [byte_of 255]] = Panic.
Proof. split; [vm_compute; reflexivity|]. split; [intros (t & E); discriminate E|vm_compute; reflexivity]. Qed.
