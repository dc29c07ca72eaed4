(** Mixed calls of Add and AddGlob are as good as the accepted ones with Add. *)
From Coq Require Import Lia ZifyBool ZifyN ZifyNat List.
From Verif Require Import Model.GGlob Spec.RegistrySpec Spec.GlobTreeSpec Spec.GGlobSpec Spec.MixSpec.
From Verif Require Import Proof.SortP Proof.RegistryP Proof.GlobTreeP Proof.GTreeP.
Import ListNotations.

Lemma run_adds_snoc {T} (add : T -> str -> Z -> res (T * add_res)) text i r t' calls : forall t t1 rs,
  run_adds add t calls = Ok (t1, rs) -> add t1 text i = Ok (t', r) -> run_adds add t (calls ++ [(text, i)]) = Ok (t', rs ++ [r]).
Proof.
  induction calls as [|[tx ix] calls IH]; cbn [run_adds app]; intros t t1 rs R A.
  - injection R as <- <-. now rewrite A.
  - destruct (add t tx ix) as [[t2 r2]| | |]; try discriminate. destruct (run_adds add t2 calls) as [[t3 rs3]| | |] eqn:R3; try discriminate.
    injection R as <- <-. now rewrite (IH _ _ _ R3 A).
Qed.
Lemma ford_snoc {A} (R : A -> A -> Prop) l x : ForallOrdPairs R (l ++ [x]) -> forall y, In y l -> R y x.
Proof.
  induction l as [|a l IH]; cbn [app]; intros F y I; [easy|]. inversion F as [|? ? F1 F2]; subst. destruct I as [<-|I]; [|now apply IH].
  rewrite Forall_forall in F1. apply F1. apply in_or_app. right. now left.
Qed.
Lemma ford_prefix {A} (R : A -> A -> Prop) l l' : ForallOrdPairs R (l ++ l') -> ForallOrdPairs R l.
Proof.
  induction l as [|a l IH]; cbn [app]; intro F; [constructor|]. inversion F as [|? ? F1 F2]; subst. constructor; [|auto].
  rewrite Forall_forall in *. intros y I. apply F1. apply in_or_app. now left.
Qed.
Lemma ford_add {A} (R : A -> A -> Prop) l x : ForallOrdPairs R l -> (forall y, In y l -> R y x) -> ForallOrdPairs R (l ++ [x]).
Proof.
  induction 1 as [|a l F1 F2 IH]; cbn [app]; intro H; [repeat constructor|]. constructor.
  - apply Forall_app. split; [exact F1|]. constructor; [apply H; now left|constructor].
  - apply IH. intros y I. apply H. now right.
Qed.
Lemma as_adds_app E F : as_adds (E ++ F) = as_adds E ++ as_adds F.
Proof. apply map_app. Qed.

(** The pure history that goes with the entries left so far. *)
Definition pure {T} (add : T -> str -> Z -> res (T * add_res)) (canon : str -> res str) (new : T) (E : list entry) (t : T) : Prop :=
  exists rs, run_adds add new (as_adds E) = Ok (t, rs) /\ history canon (as_adds E) rs E.

(** ** GlobTree *)
Definition mixed (E : list entry) (gt : glob_tree) : Prop :=
  exists gt0, pure gt_add gl_canon gt_new E gt0 /\ gt_root gt = gt_root gt0 /\ forall e, In e E -> lookup Z.eqb (e_index e) (gt_index gt) <> None.
Lemma pure_accept E gt0 text i g : pure gt_add gl_canon gt_new E gt0 -> text <> [] -> (0 <= i)%Z -> glob_parse text = Ok g -> (forall e, In e E -> e_index e <> i) ->
  no_common_name (E ++ [mkEntry text (g_node g) i]) -> exists gt1, pure gt_add gl_canon gt_new (E ++ [mkEntry text (g_node g) i]) gt1 /\ gt_root gt1 = add_glob (gt_root gt0) g i.
Proof.
  intros (rs & R & H) Nt Ni P Fi NC. destruct (gt_history (as_adds E)) as (gt' & rs' & E' & R' & H' & T). rewrite R in R'. injection R' as <- <-.
  destruct (history_fun _ _ _ _ H _ _ H') as [_ <-]. assert (MO : maps_ok E (gt_globs gt0) (gt_index gt0)) by apply T.
  assert (K1 : forall n, ~ known E text n).
  { intros n (e & I & N & _). destruct (ford_snoc _ _ _ NC e I) as (A1 & A2 & A3 & A4). cbn in *. destruct N; congruence. }
  assert (K2 : forall n, ~ known E (g_node g) n).
  { intros n (e & I & N & _). destruct (ford_snoc _ _ _ NC e I) as (A1 & A2 & A3 & A4). cbn in *. destruct N; congruence. }
  assert (U : forall q, ~ used E i q) by (intros q (e & I & N & _); exact (Fi e I N)).
  assert (A : gt_add gt0 text i = Ok (gt_accept gt0 g (g_node g) i, (g_node g, i, None))).
  { unfold gt_add. replace (null text) with false by now destruct text. replace (i <? 0)%Z with false by lia.
    rewrite (proj2 (maps_none _ _ _ text MO) K1), (proj2 (maps_unused _ _ _ i MO) U), P, (proj2 (maps_none _ _ _ (g_node g) MO) K2). reflexivity. }
  exists (gt_accept gt0 g (g_node g) i). split; [|reflexivity]. exists (rs ++ [(g_node g, i, None)]). rewrite as_adds_app. split.
  - eapply run_adds_snoc; eauto.
  - refine (h_snoc _ _ _ _ _ _ (Some _) _ H _). apply reg_new; auto. unfold gl_canon. now rewrite P.
Qed.
Lemma mixed_accept E gt text i g nrm : mixed E gt -> text <> [] -> (0 <= i)%Z -> glob_parse text = Ok g -> lookup Z.eqb i (gt_index gt) = None ->
  no_common_name (E ++ [mkEntry text (g_node g) i]) -> mixed (E ++ [mkEntry text (g_node g) i]) (gt_accept gt g nrm i).
Proof.
  intros (gt0 & P0 & Rt & Ix) Nt Ni P L NC.
  destruct (pure_accept E gt0 text i g P0 Nt Ni P) as (gt1 & P1 & R1); [intros e I Z; apply (Ix e I); now rewrite Z|exact NC|].
  exists gt1. split; [exact P1|]. split; [cbn [gt_root gt_accept]; congruence|]. intros e I. unfold gt_accept. cbn [gt_index]. rewrite lookup_assign by apply zeqb_spec.
  apply in_app_or in I as [I|[<-|[]]]; [destruct (Z.eqb_spec (e_index e) i); [discriminate|now apply Ix]|cbn; now rewrite Z.eqb_refl].
Qed.
Lemma gl_canon_ok text g : glob_parse text = Ok g -> gl_canon text = Ok (g_node g).
Proof. unfold gl_canon. now intros ->. Qed.

Lemma gt_mixed calls : forall E gt gt' rs, (forall c, In c calls -> c_text c <> []) -> mixed E gt -> run_calls gt_add glob_parse (fun t g i => Ok (gt_add_glob t g i)) gt calls = Ok (gt', rs) ->
  no_common_name (E ++ left_by gl_canon calls rs) -> mixed (E ++ left_by gl_canon calls rs) gt'.
Proof.
  induction calls as [|c calls IH]; intros E gt gt' rs NE M R NC; cbn [run_calls] in R.
  { injection R as <- <-. cbn [left_by]. now rewrite app_nil_r. }
  match type of R with match ?st with _ => _ end = _ => destruct st as [[gt1 r]| | |] eqn:St; try discriminate end.
  destruct (run_calls gt_add glob_parse (fun t g i => Ok (gt_add_glob t g i)) gt1 calls) as [[gt2 rs2]| | |] eqn:R2; try discriminate. injection R as <- <-.
  assert (Nc : c_text c <> []) by (apply NE; now left). assert (NE' : forall c, In c calls -> c_text c <> []) by (intros; apply NE; now right).
  destruct r as [[q n] e]. cbn [left_by] in *. destruct (c_text c) as [|ch tl] eqn:Tc; [easy|]. rewrite <- Tc in *.
  assert (Rej : gt1 = gt -> e <> None -> mixed (E ++ match e with None => match gl_canon (c_text c) with Ok q => [mkEntry (c_text c) q (c_index c)] | _ => [] end | Some _ => [] end ++ left_by gl_canon calls rs2) gt2).
  { intros -> Ne. destruct e as [e|]; [|easy]. cbn [app] in *. eapply IH; eauto. }
  assert (Acc : forall g nrm, glob_parse (c_text c) = Ok g -> (0 <= c_index c)%Z -> lookup Z.eqb (c_index c) (gt_index gt) = None -> gt1 = gt_accept gt g nrm (c_index c) -> e = None ->
    mixed (E ++ match e with None => match gl_canon (c_text c) with Ok q => [mkEntry (c_text c) q (c_index c)] | _ => [] end | Some _ => [] end ++ left_by gl_canon calls rs2) gt2).
  { intros g nrm P Ni L -> ->. rewrite (gl_canon_ok _ _ P) in *. rewrite app_assoc in *. eapply IH; eauto. apply mixed_accept; auto. eapply ford_prefix; eauto. }
  destruct c as [text i|text i]; cbn [c_text c_index] in *.
  - unfold gt_add in St. replace (null text) with false in St by now destruct text.
    destruct (i <? 0)%Z eqn:Ni; [injection St as <- <- <- <-; now apply Rej|]. destruct (lookup str_eqb text (gt_globs gt)); [injection St as <- <- <- <-; now apply Rej|].
    destruct (lookup Z.eqb i (gt_index gt)) eqn:L; [injection St as <- <- <- <-; now apply Rej|]. destruct (glob_parse text) as [g|er| |] eqn:P; try discriminate; [|injection St as <- <- <- <-; now apply Rej].
    destruct (lookup str_eqb (g_node g) (gt_globs gt)); injection St as <- <- <- <-; [now apply Rej|]. eapply (Acc g); eauto. lia.
  - destruct (glob_parse text) as [g|er| |] eqn:P; try discriminate; [|injection St as <- <- <- <-; now apply Rej]. unfold gt_add_glob in St.
    destruct (i <? 0)%Z eqn:Ni; [injection St as <- <- <- <-; now apply Rej|]. destruct (lookup str_eqb (g_glob g) (gt_globs gt)); [injection St as <- <- <- <-; now apply Rej|].
    destruct (lookup str_eqb (g_node g) (gt_globs gt)); [injection St as <- <- <- <-; now apply Rej|].
    destruct (lookup Z.eqb i (gt_index gt)) eqn:L; injection St as <- <- <- <-; [now apply Rej|]. eapply (Acc g); eauto. lia.
Qed.

(** ** GGlobTree *)
Definition gmixed (E : list entry) (gt : gglob_tree) : Prop :=
  (exists gt0, pure ggt_add gg_canon ggt_new E gt0 /\ ggt_root gt = ggt_root gt0) /\ no_common_name E /\
  forall e, In e E -> lookup Z.eqb (e_index e) (ggt_index gt) <> None /\ lookup str_eqb (e_node e) (ggt_globs gt) <> None /\ gg_canon (e_text e) = Ok (e_node e) /\ settled gg_canon (e_text e).
Lemma gpure_accept E gt0 text i g : pure ggt_add gg_canon ggt_new E gt0 -> text <> [] -> (0 <= i)%Z -> gg_parse text = Ok g -> (forall e, In e E -> e_index e <> i) ->
  no_common_name (E ++ [mkEntry text (gg_node g) i]) -> exists gt1, pure ggt_add gg_canon ggt_new (E ++ [mkEntry text (gg_node g) i]) gt1 /\ ggt_root gt1 = add_gglob (ggt_root gt0) g i.
Proof.
  intros (rs & R & H) Nt Ni P Fi NC. destruct (ggt_history (as_adds E)) as (gt' & rs' & E' & R' & H' & T). rewrite R in R'. injection R' as <- <-.
  destruct (history_fun _ _ _ _ H _ _ H') as [_ <-]. assert (MO : maps_ok E (ggt_globs gt0) (ggt_index gt0)) by apply T.
  assert (K1 : forall n, ~ known E text n).
  { intros n (e & I & N & _). destruct (ford_snoc _ _ _ NC e I) as (A1 & A2 & A3 & A4). cbn in *. destruct N; congruence. }
  assert (K2 : forall n, ~ known E (gg_node g) n).
  { intros n (e & I & N & _). destruct (ford_snoc _ _ _ NC e I) as (A1 & A2 & A3 & A4). cbn in *. destruct N; congruence. }
  assert (U : forall q, ~ used E i q) by (intros q (e & I & N & _); exact (Fi e I N)).
  eassert (A : ggt_add gt0 text i = Ok (_, (gg_node g, i, None))).
  { unfold ggt_add. replace (null text) with false by now destruct text. replace (i <? 0)%Z with false by lia.
    rewrite (proj2 (maps_none _ _ _ text MO) K1), (proj2 (maps_unused _ _ _ i MO) U), P, (proj2 (maps_none _ _ _ (gg_node g) MO) K2). reflexivity. }
  eexists. split; [exists (rs ++ [(gg_node g, i, None)]); rewrite as_adds_app; split; [eapply run_adds_snoc; [exact R|exact A]|]|reflexivity].
  refine (h_snoc _ _ _ _ _ _ (Some _) _ H _). apply reg_new; auto. unfold gg_canon. now rewrite P.
Qed.
Lemma gg_canon_ok text g : gg_parse text = Ok g -> gg_canon text = Ok (gg_node g).
Proof. unfold gg_canon. now intros ->. Qed.
Lemma gmixed_accept E gt text i g gs ix : gmixed E gt -> text <> [] -> settled gg_canon text -> (0 <= i)%Z -> gg_parse text = Ok g ->
  lookup Z.eqb i (ggt_index gt) = None -> lookup str_eqb (gg_node g) (ggt_globs gt) = None ->
  (forall k, lookup str_eqb k (ggt_globs gt) <> None -> lookup str_eqb k gs <> None) -> lookup str_eqb (gg_node g) gs <> None ->
  (forall k, lookup Z.eqb k (ggt_index gt) <> None -> lookup Z.eqb k ix <> None) -> lookup Z.eqb i ix <> None ->
  gmixed (E ++ [mkEntry text (gg_node g) i]) (mkGGT (add_gglob (ggt_root gt) g i) gs ix).
Proof.
  intros ((gt0 & P0 & Rt) & NC & Ix) Nt Se Ni P L1 L2 G1 G2 I1 I2. pose proof (gg_canon_ok _ _ P) as Ca.
  assert (NC' : no_common_name (E ++ [mkEntry text (gg_node g) i])).
  { apply ford_add; [exact NC|]. intros e I. destruct (Ix e I) as (_ & X & Ce & Sx). cbn [e_text e_node].
    assert (D : e_node e <> gg_node g) by (intro Z; rewrite Z in X; contradiction). pose proof (Se _ Ca) as Ca2. pose proof (Sx _ Ce) as Ce2.
    repeat split; try exact D; intro Z; apply D.
    - rewrite Z in Ce. congruence.
    - rewrite Z in Ce. congruence.
    - rewrite Z in Ce2. congruence. }
  destruct (gpure_accept E gt0 text i g P0 Nt Ni P) as (gt1 & P1 & R1); [intros e I Z; destruct (Ix e I) as (X & _); apply X; now rewrite Z|exact NC'|].
  split; [exists gt1; split; [exact P1|]; cbn [ggt_root]; congruence|]. split; [exact NC'|].
  intros e I. cbn [ggt_index ggt_globs]. apply in_app_or in I as [I|[<-|[]]]; [destruct (Ix e I) as (X1 & X2 & X3); auto|cbn [e_index e_node e_text]; auto].
Qed.
Lemma lookup_keep {K V} (eqb : K -> K -> bool) (ok : forall a b, reflect (a = b) (eqb a b)) k v m k' : lookup eqb k' m <> None -> lookup eqb k' (assign (V := V) eqb k v m) <> None.
Proof. intro H. rewrite lookup_assign by exact ok. now destruct (eqb k' k). Qed.
Lemma lookup_here {K V} (eqb : K -> K -> bool) (ok : forall a b, reflect (a = b) (eqb a b)) k v m : lookup eqb k (assign (V := V) eqb k v m) <> None.
Proof. rewrite lookup_assign by exact ok. destruct (ok k k); [discriminate|congruence]. Qed.

Lemma ggt_mixed calls : forall E gt gt' rs, (forall c, In c calls -> c_text c <> [] /\ settled gg_canon (c_text c)) -> gmixed E gt -> run_calls ggt_add gg_parse (fun t g i => Ok (ggt_add_glob t g i)) gt calls = Ok (gt', rs) ->
  gmixed (E ++ left_by gg_canon calls rs) gt'.
Proof.
  induction calls as [|c calls IH]; intros E gt gt' rs NE M R; cbn [run_calls] in R.
  { injection R as <- <-. cbn [left_by]. now rewrite app_nil_r. }
  match type of R with match ?st with _ => _ end = _ => destruct st as [[gt1 r]| | |] eqn:St; try discriminate end.
  destruct (run_calls ggt_add gg_parse (fun t g i => Ok (ggt_add_glob t g i)) gt1 calls) as [[gt2 rs2]| | |] eqn:R2; try discriminate. injection R as <- <-.
  assert (Nc : c_text c <> [] /\ settled gg_canon (c_text c)) by (apply NE; now left). destruct Nc as [Nc Se].
  assert (NE' : forall c, In c calls -> c_text c <> [] /\ settled gg_canon (c_text c)) by (intros; apply NE; now right).
  destruct r as [[q n] e]. cbn [left_by] in *. destruct (c_text c) as [|ch tl] eqn:Tc; [easy|]. rewrite <- Tc in *.
  assert (Rej : gt1 = gt -> e <> None -> gmixed (E ++ match e with None => match gg_canon (c_text c) with Ok q => [mkEntry (c_text c) q (c_index c)] | _ => [] end | Some _ => [] end ++ left_by gg_canon calls rs2) gt2).
  { intros -> Ne. destruct e as [e|]; [|easy]. cbn [app] in *. eapply IH; eauto. }
  assert (Acc : forall g gs ix, gg_parse (c_text c) = Ok g -> (0 <= c_index c)%Z -> lookup Z.eqb (c_index c) (ggt_index gt) = None -> lookup str_eqb (gg_node g) (ggt_globs gt) = None ->
    gt1 = mkGGT (add_gglob (ggt_root gt) g (c_index c)) gs ix -> e = None ->
    (forall k, lookup str_eqb k (ggt_globs gt) <> None -> lookup str_eqb k gs <> None) -> lookup str_eqb (gg_node g) gs <> None ->
    (forall k, lookup Z.eqb k (ggt_index gt) <> None -> lookup Z.eqb k ix <> None) -> lookup Z.eqb (c_index c) ix <> None ->
    gmixed (E ++ match e with None => match gg_canon (c_text c) with Ok q => [mkEntry (c_text c) q (c_index c)] | _ => [] end | Some _ => [] end ++ left_by gg_canon calls rs2) gt2).
  { intros g gs ix P Ni L1 L2 -> ->. intros. rewrite (gg_canon_ok _ _ P) in *. rewrite app_assoc in *. eapply IH; eauto. apply gmixed_accept; auto. }
  destruct c as [text i|text i]; cbn [c_text c_index] in *.
  - unfold ggt_add in St. replace (null text) with false in St by now destruct text.
    destruct (i <? 0)%Z eqn:Ni; [injection St as <- <- <- <-; now apply Rej|]. destruct (lookup str_eqb text (ggt_globs gt)); [injection St as <- <- <- <-; now apply Rej|].
    destruct (lookup Z.eqb i (ggt_index gt)) eqn:L; [injection St as <- <- <- <-; now apply Rej|]. destruct (gg_parse text) as [g|er| |] eqn:P; try discriminate; [|injection St as <- <- <- <-; now apply Rej].
    destruct (lookup str_eqb (gg_node g) (ggt_globs gt)) eqn:L2; injection St as <- <- <- <-; [now apply Rej|]. eapply (Acc g); eauto.
    + lia.
    + intros k X. apply lookup_keep; [apply str_eqb_spec|]. destruct (str_eqb (gg_node g) text); [|apply lookup_keep; [apply str_eqb_spec|]]; (apply lookup_keep; [apply str_eqb_spec|exact X]).
    + apply lookup_here, str_eqb_spec.
    + intros k X. now apply lookup_keep; [apply zeqb_spec|].
    + apply lookup_here, zeqb_spec.
  - destruct (gg_parse text) as [g|er| |] eqn:P; try discriminate; [|injection St as <- <- <- <-; now apply Rej]. unfold ggt_add_glob in St.
    destruct (i <? 0)%Z eqn:Ni; [injection St as <- <- <- <-; now apply Rej|]. destruct (lookup str_eqb (gg_glob g) (ggt_globs gt)); [injection St as <- <- <- <-; now apply Rej|].
    destruct (lookup str_eqb (gg_node g) (ggt_globs gt)) eqn:L2; [injection St as <- <- <- <-; now apply Rej|].
    destruct (lookup Z.eqb i (ggt_index gt)) eqn:L; injection St as <- <- <- <-; [now apply Rej|]. eapply (Acc g); eauto.
    + lia.
    + intros k X. match goal with |- context [if ?b then _ else _] => destruct b end; [|apply lookup_keep; [apply str_eqb_spec|]]; (apply lookup_keep; [apply str_eqb_spec|exact X]).
    + match goal with |- context [if ?b then _ else _] => destruct b end; [|apply lookup_keep; [apply str_eqb_spec|]]; apply lookup_here, str_eqb_spec.
    + intros k X. now apply lookup_keep; [apply zeqb_spec|].
    + apply lookup_here, zeqb_spec.
Qed.
