(** The statements of Props/PGGlob.v. *)
From Verif Require Import Model.GGlob Spec.Symbols Spec.Class Spec.GlobSpec Spec.StarSpec Spec.ApartSpec Spec.PathSpec Spec.RegistrySpec Spec.GGlobSpec Spec.Accept.
From Verif Require Import Proof.Utf8P Proof.SymbolsP Proof.SortP Proof.ListP Proof.ItemP Proof.DenotesP Proof.ParseP Proof.NextP Proof.GlobP Proof.GlobMatchP Proof.SafeP Proof.StarsP Proof.TotalP Proof.WellP Proof.NodeP Proof.PathP Proof.GGlobP Proof.RegistryP Proof.GTreeP Proof.GSoundP Proof.AcceptP Proof.CheckP Proof.ItemTop Proof.GlobTop Proof.NodeTop Proof.ApartP.
From Coq Require Import Lia ZifyBool ZifyN ZifyNat.

(** C37: every non-empty path has parts; PathSplit returns them, PathLevel their number and the path without its trailing dot. *)
Lemma c37_parts_l : forall path : str,
  path = [] /\ path_split path = [] /\ path_level path = ([], 0) \/
  exists ps, parts_of path ps /\ (forall ps', parts_of path ps' -> ps' = ps) /\ path_split path = ps /\ path_level path = (dotted ps, length ps).
Proof.
  intro p. destruct p as [|c p]; [auto|right]. remember (c :: p) as q. assert (N : q <> []) by (subst; discriminate). clear Heqq c p.
  exists (split_on dot (trim q)). split; [now apply parts_of_iff|]. split; [intros ps' H; now apply parts_of_iff in H|].
  split; [now apply path_split_trim|]. rewrite path_level_trim by auto. now rewrite dotted_split.
Qed.
(*EX
Example c37_parts_example : parts_of (B "a.bc..d.") [B "a"; B "bc"; []; B "d"] /\ path_split (B "a.bc..d.") = [B "a"; B "bc"; []; B "d"] /\
  path_level (B "a.bc..d.") = (B "a.bc..d", 4).
Proof.
  split; [|split; reflexivity]. split; [discriminate|]. split; [discriminate|]. split; [|now left].
  intros p I. cbn in I. repeat (destruct I as [<-|I]); try easy; intro H; cbn in H; repeat (destruct H as [H|H]; try discriminate H); easy.
Qed.
XE*)
(** C37: PathSplitB succeeds with the parts when none is empty and fails when an empty part stands before the last; HasEmptyParts
    tells whether a part is empty. *)
Lemma c37_split_b_l : forall (path : str) (ps : list str), parts_of path ps ->
  (~ In [] ps -> path_split_b path = Ok (ps, true)) /\
  (In [] (removelast ps) -> exists qs, path_split_b path = Ok (qs, false)) /\
  (has_empty_parts ps = true <-> In [] ps).
Proof.
  intros p ps P. assert (D : dotless ps) by apply P. apply parts_of_iff in P as [N E].
  assert (T : trim p = dotted ps) by (rewrite E; now rewrite dotted_split). rewrite psb_unfold, T by auto.
  assert (L : length (dotted ps) <= length p) by (rewrite <- T; apply trim_length). split; [|split].
  - intro F. apply full_iff in F. rewrite psb_full; auto.
  - intro I. apply psb_bad; auto.
  - unfold has_empty_parts. rewrite existsb_exists. split.
    + intros (x & I & H). destruct x; [auto|discriminate].
    + intro I. exists []. auto.
Qed.
(*EX
Example c37_split_b_example : path_split_b (B "a.bc.d.") = Ok ([B "a"; B "bc"; B "d"], true) /\ path_split_b (B "a.bc..d") = Ok ([B "a"; B "bc"], false) /\
  has_empty_parts [B "a"; []] = true.
Proof. repeat split. Qed.
XE*)
(** C37: an empty last part goes unnoticed by PathSplitB. *)
Lemma c37_trailing_refuted_l : forall qs : list str, ~ In [] qs -> dotless qs ->
  path_split_b (dotted (qs ++ [[]]) ++ B ".") = Ok (qs, true) /\ (qs <> [] -> path_split (dotted (qs ++ [[]]) ++ B ".") = qs ++ [[]]).
Proof.
  intros qs F D. apply full_iff in F. set (p := dotted (qs ++ [[]]) ++ B ".").
  assert (N : p <> []) by (unfold p; now destruct (dotted (qs ++ [[]]))). assert (T : trim p = dotted (qs ++ [[]])) by (symmetry; apply trim_iff; now left).
  split.
  - rewrite psb_unfold, T by auto. rewrite psb_last; auto. rewrite <- T. apply trim_length.
  - intros _. rewrite path_split_trim, T by auto. apply split_dotted; [now destruct qs|]. now apply dotless_snoc.
Qed.
(*EX
Example c37_trailing_example : path_split_b (B "a..") = Ok ([B "a"], true) /\ path_split (B "a..") = [B "a"; []] /\ path_split_b (B ".") = Ok ([], true).
Proof. repeat split. Qed.
XE*)

(** ** C38 *)
Lemma sum_len gs : forall ps qs, Forall2 parses qs gs -> Forall2 part_matches gs ps -> full ps -> (sum_min gs <= zlen (dotted ps))%Z.
Proof.
  induction gs as [|g gs IH]; intros ps qs P F N; inversion F as [|? p ? ps' M F2]; subst; [cbn; lia|]. inversion P as [|q ? qs' ? Pq P2]; subst.
  assert (g_min g <= zlen p)%Z by (eapply glob_match_min; eauto; apply N; now left).
  assert (sum_min gs <= zlen (dotted ps'))%Z by (eapply IH; eauto; intros x I; apply N; now right).
  cbn [sum_min fold_right]. fold (sum_min gs). destruct ps' as [|p2 ps']; [cbn in *; lia|]. rewrite (dotted_cons p) by discriminate. rewrite zlen_app. unfold zlen in *. cbn [length]. lia.
Qed.
(** C38: GGlob.Match is true exactly when the path has as many parts as the glob, none empty, every part matches its glob part, and the path
    is not longer than the bound MaxLen (if it is positive). *)
Lemma c38_exact_l : forall (text : str) (g : gglob) (path : str), gg_parse text = Ok g ->
  (gg_match g path = Ok true <->
   exists ps, parts_of path ps /\ ~ In [] ps /\ Forall2 part_matches (gg_parts g) ps /\
     (gg_max g <= 0 \/ Z.of_nat (length (dotted ps)) <= gg_max g)%Z).
Proof.
  intros text g p H. assert (X : exists qs, Forall2 parses qs (gg_parts g) /\ gg_min g = sum_min (gg_parts g)).
  { apply gg_parse_iff in H as (qs & gs & _ & P & ->). eauto. }
  destruct X as (qs & P & Mn). unfold gg_match. destruct p as [|c p]; cbn [null].
  { split; [discriminate|]. intros (ps & (N & _) & _). easy. }
  remember (c :: p) as q. assert (Nq : q <> []) by (subst; discriminate). clear Heqq c p. rewrite path_level_trim by auto.
  split.
  - intro M. destruct (Nat.eqb_spec (length (gg_parts g)) (length (split_on dot (trim q)))) as [L|]; [|discriminate]. cbn [negb] in M.
    destruct (zlen (trim q) <? gg_min g)%Z; [discriminate|]. destruct ((0 <? gg_max g) && (gg_max g <? zlen (trim q)))%Z eqn:Bd; [discriminate|].
    apply gg_loop_iff in M as (ps & D & F & F2 & E). exists ps.
    assert (Lp : length (gg_parts g) = length ps) by (eapply forall2_length; eauto). rewrite L in Lp.
    assert (Np : ps <> []) by (intros ->; destruct (split_on dot (trim q)) eqn:Z; [now apply split_on_nonempty in Z|discriminate]).
    assert (Et : trim q = dotted ps).
    { destruct E as [E|[_ E]]; auto. exfalso. rewrite E, <- dotted_snoc, split_dotted, app_length in Lp; auto; [cbn in Lp; unfold str in *; lia|now destruct ps|now apply dotless_snoc]. }
    split; [split; [auto|split; [auto|split; [auto|apply trim_iff; auto]]]|]. split; [now apply full_iff|]. split; [auto|]. rewrite <- Et. unfold zlen, str in *. lia.
  - intros (ps & PO & F & F2 & Bd). apply full_iff in F. assert (D : dotless ps) by apply PO. apply parts_of_iff in PO as [_ E]. assert (Et : trim q = dotted ps) by (rewrite E; now rewrite dotted_split).
    rewrite <- E. rewrite (forall2_length _ _ _ F2), Nat.eqb_refl. cbn [negb]. rewrite Et.
    assert (S := sum_len _ _ _ P F2 F). rewrite Mn. replace (zlen (dotted ps) <? sum_min (gg_parts g))%Z with false by lia.
    replace ((0 <? gg_max g) && (gg_max g <? zlen (dotted ps)))%Z with false by (unfold zlen, str in *; lia). apply gg_loop_iff. exists ps. auto.
Qed.
(*EX
Example c38_exact_example : exists g, gg_parse (B "a*.{b,c}?.d") = Ok g /\ gg_max g = (-1)%Z /\ length (gg_parts g) = 3 /\ gg_match g (B "axy.cz.d.") = Ok true /\ gg_match g (B "axy.cz.") = Ok false.
Proof. eexists. split; [vm_compute; reflexivity|]. repeat match goal with |- _ /\ _ => split end; vm_compute; reflexivity. Qed.
XE*)
(** C38: matching is part by part when MaxLen is unlimited. *)
Lemma c38_unbounded_l : forall (text : str) (g : gglob) (path : str), gg_parse text = Ok g -> gg_max g = (-1)%Z ->
  (gg_match g path = Ok true <-> exists ps, parts_of path ps /\ ~ In [] ps /\ Forall2 part_matches (gg_parts g) ps).
Proof.
  intros text g path P M. rewrite (c38_exact_l text g path P). split; intros (ps & H); [exists ps; tauto|]. exists ps. destruct H as (A1 & A2 & A3). split; [auto|]. split; [auto|]. split; [auto|]. left. lia.
Qed.
(*EX
Example c38_unbounded_example : exists g, gg_parse (B "*.b") = Ok g /\ gg_max g = (-1)%Z /\ gg_match g (B "xyz.b") = Ok true.
Proof. eexists. split; [vm_compute; reflexivity|]. repeat match goal with |- _ /\ _ => split end; vm_compute; reflexivity. Qed.
XE*)
(** C38: the dots are not counted in MaxLen, so that a bounded glob of several parts misses paths. *)
Lemma c38_bounded_refuted_l : exists g, gg_parse (B "a.b") = Ok g /\ gg_match g (B "a.b") = Ok false /\
  Forall2 part_matches (gg_parts g) [B "a"; B "b"] /\ gg_match_by_parts g [B "a"; B "b"] 0 = Ok true /\ gg_match_by_parts g [B "a"; B "b"] 3 = Ok false.
Proof. eexists. split; [vm_compute; reflexivity|]. split; [vm_compute; reflexivity|]. split; [|split; vm_compute; reflexivity]. repeat constructor; vm_compute; reflexivity. Qed.
(** C38: matching a dotted glob always ends. *)
Lemma c38_no_fuel_l : forall (g : gglob) (path : str), gg_match g path <> Fuel /\ forall ps len, gg_match_by_parts g ps len <> Fuel.
Proof.
  intros g p. split.
  - unfold gg_match. destruct (null p); [discriminate|]. destruct (path_level p) as [q n]. repeat match goal with |- context [if ?c then _ else _] => destruct c; [discriminate|] end.
    generalize (gg_parts g). intro l. revert q. induction l as [|x l IH]; intro q; cbn [gg_match_loop]; [discriminate|]. destruct (cut dot q) as [[part rest] fd]. destruct (null part); [discriminate|].
    pose proof (c24_terminates_l x part). destruct (glob_match x part) as [[]|e| |]; cbn; auto; discriminate.
  - intros ps len. unfold gg_match_by_parts. repeat match goal with |- context [if ?c then _ else _] => destruct c; [discriminate|] end.
    generalize (gg_parts g). intro l. revert ps. induction l as [|x l IH]; intros [|p0 ps]; cbn [gg_match_parts_loop]; try discriminate.
    pose proof (c24_terminates_l x p0). destruct (glob_match x p0) as [[]|e| |]; cbn; auto; discriminate.
Qed.

Lemma clean_parts ps : clean (dotted ps) -> dotless ps -> Forall clean ps.
Proof.
  induction ps as [|p [|q ps] IH]; intros C D; [constructor|repeat constructor; exact C|].
  rewrite dotted_cons in C by discriminate. apply clean_mid in C as [C1 C2]; [|reflexivity]. constructor; auto. apply IH; auto. intros x I. apply D. now right.
Qed.
Lemma clean_trimmed p q : clean p -> trimmed p q -> clean q.
Proof. intros C [->|[<- _]]; auto. apply clean_mid in C; [tauto|reflexivity]. Qed.
Lemma good_zero g : ~ In (byte_of 0) g -> ~ In zero g.
Proof. auto. Qed.
Lemma good_match g gl s : good_glob g -> glob_parse g = Ok gl -> clean s \/ lone_classes g -> exists b, glob_match gl s = Ok b /\ (b = true <-> part_denotes g s).
Proof. intros (C & Z & _ & P & Q & R) H Cs. apply (c21_exact_l g gl s); auto. now apply plain_not_star. Qed.
Lemma good_all gs gls ps : Forall good_glob gs -> Forall2 parses gs gls -> Forall clean ps \/ Forall lone_classes gs -> length gs = length ps ->
  (forall g s, In g gls -> In s ps -> exists b, glob_match g s = Ok b) /\ (Forall2 part_matches gls ps <-> Forall2 part_denotes gs ps).
Proof.
  intros G P. revert ps. induction P as [|g gl gs gls Pg P IH]; intros ps C L.
  - destruct ps; [|discriminate]. split; [easy|]. split; constructor.
  - destruct ps as [|p ps]; [discriminate|]. inversion G as [|? ? Gg Gs]; subst. injection L as L.
    assert (Cp : clean p \/ lone_classes g) by (destruct C as [C|C]; inversion C; auto). assert (Cs : Forall clean ps \/ Forall lone_classes gs) by (destruct C as [C|C]; inversion C; auto).
    destruct (IH Gs ps Cs L) as [I1 I2]. split.
    + intros g0 s I0 Is. assert (Cs0 : clean s \/ Forall lone_classes (g :: gs)) by (destruct C as [C|C]; auto; left; rewrite Forall_forall in C; auto).
      destruct I0 as [<-|I0]; [destruct (good_match g gl s Gg Pg) as (b & H & _); [destruct Cs0 as [|X]; auto; inversion X; auto|eauto]|].
      assert (exists t, In t gs /\ parses t g0) as (t & It & Pt).
      { clear - P I0. induction P; [easy|]. destruct I0 as [<-|I0]; [exists x; split; [now left|auto]|]. destruct (IHP I0) as (t & It & Pt). exists t. split; [now right|auto]. }
      rewrite Forall_forall in Gs. destruct (good_match t g0 s) as (b & H & _); eauto. destruct Cs0 as [|X]; auto. rewrite Forall_forall in X. right. apply X. now right.
    + destruct (good_match g gl p Gg Pg Cp) as (b & H & Hb). split; intro F; inversion F as [|? ? ? ? M F2]; subst; constructor.
      * apply Hb. red in M. congruence.
      * now apply I2.
      * red. rewrite H. f_equal. now apply Hb.
      * now apply I2.
Qed.
Lemma accepted_fun text gs qs : accepted_parts text gs -> accepted_parts text qs -> qs = gs.
Proof.
  intros A A'.
    destruct text as [|c0 text]; [destruct A as [[_ ->]|[_ [A|A]]], A' as [[_ ->]|[_ [A'|A']]]; auto; try (now destruct A); now destruct A'|].
    apply accepted_iff in A; [|discriminate]. apply accepted_iff in A'; [|discriminate].
    assert (K : forall x, (trim (c0 :: text) = dotted x \/ (x <> [] /\ trim (c0 :: text) = dotted x ++ ["."%char])) -> dotless x -> full x ->
      x = filter (fun y => negb (null y)) (split_on dot (trim (c0 :: text)))).
    { intros x E D F. assert (Fx : filter (fun y => negb (null y)) x = x). { clear - F. induction x as [|y x IH]; auto. cbn. destruct y; [now elim (F [] (or_introl eq_refl))|]. cbn. f_equal. apply IH. intros z I. apply F. now right. }
      destruct E as [E|[Nx E]]; rewrite E.
      - destruct x as [|y x]; [reflexivity|]. now rewrite split_dotted.
      - rewrite <- dotted_snoc by auto. rewrite split_dotted; [|now destruct x|now apply dotless_snoc]. rewrite filter_app. cbn. rewrite app_nil_r. now symmetry. }
    destruct A as (D & F & E), A' as (D' & F' & E'). rewrite (K gs), (K qs); auto.
Qed.
(** C38: what GGlob.Match accepts, in terms of the glob text. *)
Lemma c38_denotes_l : forall (text : str) (gs : list str) (g : gglob) (path : str) (ps : list str),
  accepted_parts text gs -> Forall good_glob gs -> gg_parse text = Ok g -> gg_max g = (-1)%Z -> clean path \/ lone_parts text -> parts_of path ps ->
  (gg_match g path = Ok true <-> ~ In [] ps /\ Forall2 part_denotes gs ps).
Proof.
  intros text gs g path ps A G P M C PO. rewrite (c38_unbounded_l text g path P M).
  assert (Cp : Forall clean ps \/ Forall lone_classes gs). { destruct C as [C|C]; auto. left. destruct PO as (_ & _ & D & T). apply clean_parts; auto. eapply clean_trimmed; eauto. }
  assert (X : Forall2 parses gs (gg_parts g)).
  { apply gg_parse_iff in P as (qs & gls & A' & P & ->). cbn. assert (qs = gs); [|congruence].
    eapply accepted_fun; eauto. }
  split.
  - intros (ps' & PO' & N & F). assert (ps' = ps). { apply parts_of_iff in PO as [_ ->], PO' as [_ ->]. reflexivity. } subst ps'. split; auto.
    apply (good_all gs (gg_parts g) ps); auto. rewrite (forall2_length _ _ _ X). eapply forall2_length; eauto.
  - intros [N F]. exists ps. split; auto. split; auto. apply (good_all gs (gg_parts g) ps); auto. eapply forall2_length; eauto.
Qed.
(*EX
Example c38_denotes_example : exists gs g ps, accepted_parts (B "a*.{b,c?}[0-9].d") gs /\ Forall good_glob gs /\ gg_parse (B "a*.{b,c?}[0-9].d") = Ok g /\ gg_max g = (-1)%Z /\
  clean (B "axж.cz7.d") /\ parts_of (B "axж.cz7.d") ps /\ gg_match g (B "axж.cz7.d") = Ok true /\ gg_match g (B "axж.cz77.d") = Ok false.
Proof.
  exists [B "a*"; B "{b,c?}[0-9]"; B "d"]. eexists. exists [B "axж"; B "cz7"; B "d"].
  split; [right; split; [now intros [Z|[Z|[Z|[]]]]|]; left; apply parts_of_iff; split; [discriminate|reflexivity]|].
  split; [do 3 (apply Forall_cons; [apply good_glob_ok; vm_compute; reflexivity|]); apply Forall_nil|]. split; [vm_compute; reflexivity|]. split; [reflexivity|].
  split; [apply clean_b_ok; vm_compute; reflexivity|]. split; [apply parts_of_iff; split; [discriminate|reflexivity]|]. split; vm_compute; reflexivity.
Qed.
XE*)

(*EX
Example c38_malformed_example : let path := B "a" ++ byte_of 255 :: B ".я" in exists g, lone_parts (B "a*.?") /\ gg_parse (B "a*.?") = Ok g /\ gg_max g = (-1)%Z /\
  parts_of path [B "a" ++ [byte_of 255]; B "я"] /\ gg_match g path = Ok true /\ gg_match g (B "a." ++ [byte_of 209; byte_of 255]) = Ok false.
Proof.
  cbv zeta. eexists. split; [|split; [vm_compute; reflexivity|split; [reflexivity|split; [apply parts_of_iff; split; [discriminate|reflexivity]|split; vm_compute; reflexivity]]]].
  intros gs A. assert (A0 : accepted_parts (B "a*.?") [B "a*"; B "?"]). { right. split; [now intros [Z|[Z|[]]]|]. left. apply parts_of_iff. split; [discriminate|reflexivity]. }
  rewrite (accepted_fun _ _ _ A0 A). repeat (apply Forall_cons; [apply ParseP.no_class_lone; apply (no_byte_ok 91); reflexivity|]). apply Forall_nil.
Qed.
XE*)

(** C39: MatchByParts without a length is part by part. *)
Lemma c39_parts_l : forall (g : gglob) (ps : list str),
  gg_match_by_parts g ps 0 = Ok true <-> ps <> [] /\ Forall2 part_matches (gg_parts g) ps.
Proof.
  intros g ps. unfold gg_match_by_parts. destruct ps as [|p ps]; [cbn; split; [discriminate|intros [N _]; easy]|]. cbn [null].
  destruct (Nat.eqb_spec (length (gg_parts g)) (length (p :: ps))) as [L|L]; cbn [negb Z.ltb Z.compare andb].
  - rewrite gg_parts_iff by auto. split; [intro H; split; [discriminate|exact H]|now intros [_ H]].
  - split; [discriminate|]. intros [_ F]. now apply forall2_length in F.
Qed.
(*EX
Example c39_parts_example : exists g, gg_parse (B "a*.{b,c}?.d") = Ok g /\ gg_match_by_parts g [B "axy"; B "cz"; B "d"] 0 = Ok true /\ gg_match_by_parts g [B "axy"; B "cz"] 0 = Ok false.
Proof. eexists. split; [vm_compute; reflexivity|]. split; vm_compute; reflexivity. Qed.
XE*)
(** C80: a path that GGlob.Match or MatchByParts accepts is denoted part by part by the glob text, whatever the bounds. *)
Lemma c80_gglob_l : forall (text : str) (gs : list str) (g : gglob), accepted_parts text gs -> gg_parse text = Ok g ->
  (forall p, In p gs -> clean p /\ ~ In (byte_of 0) p /\ plain_singles p /\ ~ only_star p /\ calm_glob p) ->
  (forall path ps, parts_of path ps -> gg_match g path = Ok true -> ~ In [] ps /\ Forall2 part_denotes gs ps) /\
  (forall ps len, gg_match_by_parts g ps len = Ok true -> Forall2 part_denotes gs ps).
Proof.
  intros text gs g A P G.
  assert (X : Forall2 parses gs (gg_parts g)).
  { apply gg_parse_iff in P as (qs & gls & A' & P & ->). cbn. assert (qs = gs); [|congruence]. eapply accepted_fun; eauto. }
  assert (K : forall ps, Forall2 part_matches (gg_parts g) ps -> Forall2 part_denotes gs ps).
  { clear A P. revert G. induction X as [|p gl gs gls Px X IH]; intros G ps F; inversion F as [|? s ? ps' M F']; subst; constructor.
    - destruct (G p) as (C & Z0 & S & O & Q); [now left|]. eapply c80_sound_l; eauto.
    - apply IH; auto. intros q I. apply G. now right. }
  split.
  - intros path ps PO M. apply (c38_exact_l text g path P) in M as (ps' & PO' & N & F & _).
    assert (ps' = ps). { apply parts_of_iff in PO as [_ ->], PO' as [_ ->]. reflexivity. } subst ps'. split; auto.
  - intros ps len M. apply K. apply (c39_parts_l g ps). revert M. unfold gg_match_by_parts. destruct (null ps); [discriminate|]. destruct (negb _); [discriminate|].
    repeat match goal with |- context [if ?c then Ok false else _] => destruct c; [discriminate|] end. auto.
Qed.
(*EX
Example c80_gglob_example : exists g, gg_parse (B "x*.{a*,c}{d,*e}[f-h]*") = Ok g /\ accepted_parts (B "x*.{a*,c}{d,*e}[f-h]*") [B "x*"; B "{a*,c}{d,*e}[f-h]*"] /\ gg_match g (B "xy.a1behj") = Ok true.
Proof.
  eexists. split; [vm_compute; reflexivity|]. split; [|vm_compute; reflexivity]. right. split.
  - intros [E|[E|[]]]; discriminate E.
  - left. split; [discriminate|]. split; [discriminate|]. split.
    2:{ right. split; [reflexivity|]. intros q E. apply (f_equal (fun l => last l "."%char)) in E. rewrite last_last in E. discriminate E. }
    intros x [<-|[<-|[]]]; vm_compute; intuition discriminate.
Qed.
XE*)
Lemma loops_same gs : forall ps, dotless ps -> full ps -> length gs = length ps -> gg_match_loop gs (dotted ps) = gg_match_parts_loop gs ps.
Proof.
  induction gs as [|g gs IH]; intros [|p ps] D F L; try discriminate; [reflexivity|].
  assert (Dp : ~ In dot p) by (apply D; now left). assert (Dr : dotless ps) by (intros x J; apply D; now right). assert (Fr : full ps) by (intros x J; apply F; now right).
  assert (Np : p <> []) by (apply F; now left). cbn [gg_match_loop gg_match_parts_loop]. rewrite cut_dotted by auto. replace (null p) with false by now destruct p. rewrite IH; auto.
Qed.
(** C39: MatchByParts with the length of the path is Match. *)
Lemma c39_same_l : forall (g : gglob) (path : str) (ps : list str), parts_of path ps -> ~ In [] ps ->
  gg_match_by_parts g ps (Z.of_nat (length (dotted ps))) = gg_match g path.
Proof.
  intros g path ps PO F. apply full_iff in F. assert (D : dotless ps) by apply PO. assert (N : ps <> []) by apply PO. apply parts_of_iff in PO as [Np E]. assert (Et : trim path = dotted ps) by (rewrite E; now rewrite dotted_split).
  unfold gg_match, gg_match_by_parts. replace (null ps) with false by now destruct ps. replace (null path) with false by now destruct path. rewrite path_level_trim by auto. rewrite <- E, Et.
  destruct (Nat.eqb_spec (length (gg_parts g)) (length ps)) as [L|L]; cbn [negb]; auto. rewrite loops_same by auto.
  assert (Nd : dotted ps <> []) by (intro Z; apply dotted_nil in Z; auto). assert (Ln : 0 < length (dotted ps)) by (destruct (dotted ps); [easy|cbn; lia]).
  change (zlen (dotted ps)) with (Z.of_nat (length (dotted ps))). unfold str in *. replace (0 <? Z.of_nat (length (dotted ps)))%Z with true by lia. reflexivity.
Qed.
(*EX
Example c39_same_example : parts_of (B "axy.cz.d.") [B "axy"; B "cz"; B "d"].
Proof.
  split; [discriminate|]. split; [discriminate|]. split; [|now left].
  intros p I. cbn in I. repeat (destruct I as [<-|I]); try easy; intro H; cbn in H; repeat (destruct H as [H|H]; try discriminate H); easy.
Qed.
XE*)

(** C40: Parse returns a glob or an error. *)
Lemma c40_total_l : forall text : str, (exists g, gg_parse text = Ok g) \/ (exists e, gg_parse text = Err e).
Proof. intro t. assert (F := gg_parse_fine t). destruct (gg_parse t); try easy; eauto. Qed.
(** C40: Parse succeeds exactly when the parts are accepted by glob.Parse one by one; the result is made of the parsed parts, its
    canonical text is the dotted text of theirs, and its MinLen the sum of theirs. *)
Lemma c40_parse_l : forall text : str,
  (forall parts gs, accepted_parts text parts -> Forall2 (fun p g => glob_parse p = Ok g) parts gs ->
     exists g, gg_parse text = Ok g /\ gg_parts g = gs /\ gg_node g = dotted (map g_node gs) /\
       gg_min g = fold_right Z.add 0%Z (map g_min gs) /\ (text <> [] -> trimmed text (gg_glob g)) /\
       (gg_max g = -1 <-> Exists (fun x => g_max x < 0) gs)%Z /\ (gg_max g <> -1 -> gg_max g = fold_right Z.add 0 (map g_max gs))%Z) /\
  (forall g, gg_parse text = Ok g -> exists parts, accepted_parts text parts /\ Forall2 (fun p g => glob_parse p = Ok g) parts (gg_parts g)).
Proof.
  intro text. split.
  - intros parts gs A P. eexists. split; [apply gg_parse_iff; exists parts, gs; split; [exact A|split; [exact P|reflexivity]]|]. cbn [gg_parts gg_node gg_min gg_max gg_glob].
    split; auto. split; auto. split; [unfold sum_min; clear; induction gs; cbn; congruence|]. split; [intro N; destruct text; [easy|]; now apply trim_iff|].
    assert (K : forall gs mx, (0 <= mx)%Z -> (sum_max gs mx = -1 <-> Exists (fun x => g_max x < 0) gs)%Z /\ (sum_max gs mx <> -1 -> sum_max gs mx = mx + fold_right Z.add 0 (map g_max gs))%Z).
    { clear. assert (K1 : forall gs, sum_max gs (-1)%Z = (-1)%Z) by (induction gs as [|g gs IH]; auto).
      induction gs as [|g gs IH]; intros mx L; cbn [sum_max fold_left map fold_right].
      - split; [|lia]. split; [lia|]. intro H. inversion H.
      - fold (sum_max gs (add_max_len mx (g_max g))). unfold add_max_len. destruct ((-1 <? mx) && (-1 <? g_max g))%Z eqn:Bd.
        + destruct (IH (mx + g_max g)%Z) as [I1 I2]; [lia|]. split; [|intro H; rewrite I2 by auto; lia]. rewrite I1. split; [intro H; now right|]. intro H. inversion H; subst; auto. lia.
        + rewrite K1. split; [|lia]. split; auto. intros _. left. lia. }
    apply (K gs 0%Z). lia.
  - intros g H. apply gg_parse_iff in H as (qs & gs & A & P & ->). exists qs. auto.
Qed.
(*EX
Example c40_parse_example : accepted_parts (B "a*.{b,c}?.d") [B "a*"; B "{b,c}?"; B "d"] /\ exists g, gg_parse (B "a*.{c,b}?.d") = Ok g /\ gg_node g = B "a*.{b,c}?.d" /\ gg_min g = 4%Z /\
  gg_parse (B "a..b") = Err (ErrNodeEmpty (B "a..b")) /\ gg_parse (B "a.[b") = Err (ErrNodeUnclosed (B "[b")).
Proof.
  split; [|eexists; split; [vm_compute; reflexivity|repeat split]]. right. split; [now intros [H|[H|[H|[]]]]|left]. split; [discriminate|]. split; [discriminate|]. split.
  - intros p I. cbn in I. repeat (destruct I as [<-|I]); try easy; intro H; cbn in H; repeat (destruct H as [H|H]; try discriminate H); easy.
  - right. split; [reflexivity|]. intros q E. apply (f_equal (@rev _)) in E. rewrite rev_app_distr in E. discriminate.
Qed.
XE*)
(** C40: exactly which texts (valid UTF-8) are accepted. *)
Lemma c40_exact_l : forall text : str, clean text ->
  ((exists g, gg_parse text = Ok g) <-> exists parts, accepted_parts text parts /\ Forall accepted parts).
Proof.
  intros text C. split.
  - intros (g & H). apply gg_parse_iff in H as (qs & gs & A & P & _). exists qs. split; [exact A|]. assert (Cq : Forall clean qs).
    { destruct text as [|c text]; [destruct A as [[_ ->]|[_ [(N & _)|(N & _)]]]; [constructor|easy|easy]|].
      assert (Ct : clean (trim (c :: text))) by (eapply clean_trimmed; [exact C|apply trim_iff; reflexivity]).
      apply accepted_iff in A as (D & F & [E|[_ E]]); [| |discriminate]; rewrite E in Ct; apply clean_parts; auto. apply clean_mid in Ct; [tauto|reflexivity]. }
    clear A C. induction P as [|q g' qs gs H P IH]; [constructor|]. inversion Cq; subst. constructor; auto. eapply parse_accepted; eauto.
  - intros (parts & A & F). assert (G : exists gs, Forall2 parses parts gs).
    { clear A. induction F as [|q qs Hq F IH]; [exists []; constructor|]. destruct IH as (gs & IH). apply glob_parse_ac in Hq.
      destruct (glob_parse q) as [g| | |] eqn:E; try easy. exists (g :: gs). constructor; auto. }
    destruct G as (gs & G). eexists. apply gg_parse_iff. exists parts, gs. split; [exact A|]. split; [exact G|reflexivity].
Qed.
(*EX
Example c40_exact_example : (exists g, gg_parse (B "a*.{*,]}.") = Ok g) /\ accepted (B "a*") /\ accepted (B "{*,]}") /\ gg_parse (B "a*.]") = Err (ErrNodeUnclosed (B "]")).
Proof.
  split; [eexists; vm_compute; reflexivity|]. split; [|split; [|vm_compute; reflexivity]].
  - eapply parse_accepted; [apply clean_ascii|vm_compute; reflexivity]. intros c I. repeat (destruct I as [<-|I]; [reflexivity|]). destruct I.
  - eapply parse_accepted; [apply clean_ascii|vm_compute; reflexivity]. intros c I. repeat (destruct I as [<-|I]; [reflexivity|]). destruct I.
Qed.
XE*)
(** C83: ParseMust of dotted globs. *)
Lemma c83_gglob_l : forall text : str,
  (forall g, gg_parse_must text = Ok g <-> gg_parse text = Ok g) /\
  (gg_parse_must text = Panic <-> exists e, gg_parse text = Err e) /\
  ((exists g, gg_parse_must text = Ok g) \/ gg_parse_must text = Panic) /\
  (clean text -> (gg_parse_must text = Panic <-> ~ exists parts, accepted_parts text parts /\ Forall accepted parts)).
Proof.
  intro text. unfold gg_parse_must. assert (T := c40_total_l text). assert (X := c40_exact_l text).
  destruct (gg_parse text) as [g|e| |]; try (destruct T as [[? T]|[? T]]; discriminate).
  - split; [reflexivity|]. split; [split; [discriminate|intros (? & ?); discriminate]|]. split; [eauto|]. intro C. split; [discriminate|]. intro N. elim N. apply X; eauto.
  - split; [split; discriminate|]. split; [split; [eauto|auto]|]. split; [auto|]. intro C. split; [|auto]. intros _ N. apply (X C) in N as (? & N). discriminate.
Qed.
(*EX
Example c83_gglob_example : (exists g, gg_parse_must (B "a.{b,c}") = Ok g) /\ gg_parse_must (B "a..b") = Panic /\ gg_parse_must (B "a.[") = Panic.
Proof. split; [eexists; vm_compute; reflexivity|]. split; vm_compute; reflexivity. Qed.
XE*)
(** C40: an empty part at the end is not noticed: "a.." parses as "a", and "." as no part at all. *)
Lemma c40_empty_part_refuted_l : (parts_of (B "a..") [B "a"; []] /\ exists g, gg_parse (B "a..") = Ok g /\ length (gg_parts g) = 1) /\
  (parts_of (B ".") [[]] /\ exists g, gg_parse (B ".") = Ok g /\ gg_parts g = []).
Proof.
  split; (split; [|eexists; split; vm_compute; reflexivity]); apply parts_of_iff; split; (discriminate || reflexivity).
Qed.

(** C41: whatever the calls of Add, each one returns what the registry of the earlier ones dictates. *)
Lemma c41_history_l : forall calls : list (str * Z), exists gt rs E, run_adds ggt_add ggt_new calls = Ok (gt, rs) /\
  history gg_canon calls rs E /\ distinct E /\
  (forall name n, lookup str_eqb name (ggt_globs gt) = Some n <-> known E name n) /\
  (forall i q, lookup Z.eqb i (ggt_index gt) = Some q <-> used E i q).
Proof.
  intro calls. destruct (ggt_history calls) as (gt & rs & E & R & H & (D & M1 & M2) & _). exists gt, rs, E. auto.
Qed.
(*EX
Example c41_history_example : exists gt, run_adds ggt_add ggt_new [(B "a.{c,b}", 5%Z); (B "a.{b,c}", 6%Z); (B "b", 5%Z); (B "a..b", 7%Z); (B "*.x", 0%Z); (B "y", (-1)%Z); (B "a.{c,b}.", 8%Z)] =
  Ok (gt, [(B "a.{b,c}", 5%Z, None); (B "a.{b,c}", 5%Z, Some ErrGlobExist); (B "a.{b,c}", 0%Z, Some ErrIndexDup); ([], 0%Z, Some (ErrNodeEmpty (B "a..b")));
           (B "*.x", 0%Z, None); (B "y", 0%Z, Some ErrIndexInvalid); (B "a.{b,c}", 5%Z, Some ErrGlobExist)]).
Proof. eexists. vm_compute. reflexivity. Qed.
XE*)
(** C41: a rejected call leaves the tree as it was. *)
Lemma c41_rejected_l : forall (calls : list (str * Z)) (gt gt' : gglob_tree) rs text i q n e,
  run_adds ggt_add ggt_new calls = Ok (gt, rs) -> ggt_add gt text i = Ok (gt', (q, n, Some e)) -> gt' = gt.
Proof.
  intros calls gt gt' rs text i q n e R A. destruct (ggt_history calls) as (gt0 & rs0 & E & R0 & H & T). rewrite R in R0. injection R0 as <- <-.
  destruct (ggt_step E gt text i T) as (gt2 & r & new & A2 & Rg & _ & K). rewrite A in A2. injection A2 as <- <-. apply K. now inversion Rg.
Qed.
(*EX
Example c41_rejected_example : exists gt rs, run_adds ggt_add ggt_new [(B "a.{c,b}", 5%Z)] = Ok (gt, rs) /\ ggt_add gt (B "a.{b,c}") 6 = Ok (gt, (B "a.{b,c}", 5%Z, Some ErrGlobExist)).
Proof. do 2 eexists. split; vm_compute; reflexivity. Qed.
XE*)
(** C41: AddGlob of a parsed glob is accepted exactly when Add of its text is, and the trees then answer alike. *)
Lemma c41_add_glob_l : forall (gt : gglob_tree) (text : str) (i : Z) (g : gglob), text <> [] -> (forall q, text <> q ++ ["."%char]) -> gg_parse text = Ok g ->
  exists gt1 gt2 q1 q2 n1 n2 e1 e2,
    ggt_add gt text i = Ok (gt1, (q1, n1, e1)) /\ ggt_add_glob gt g i = (gt2, (q2, n2, e2)) /\
    (e1 = None <-> e2 = None) /\ (e2 <> None -> gt2 = gt) /\ (e2 = None -> n1 = i /\ n2 = i) /\
    (forall path, ggt_match gt1 path = ggt_match gt2 path) /\ forall ps, ggt_match_by_parts gt1 ps = ggt_match_by_parts gt2 ps.
Proof.
  intros gt text i g N D P. assert (G : gg_glob g = text).
  { apply gg_parse_iff in P as (qs & gs & _ & _ & ->). cbn [gg_glob]. destruct text as [|c text]; [easy|].
    destruct (proj2 (trim_iff (c :: text) _) eq_refl) as [E|[E _]]; [now apply D in E|now symmetry]. }
  unfold ggt_add, ggt_add_glob. rewrite P, G. replace (null text) with false by now destruct text.
  destruct (i <? 0)%Z; [do 8 eexists; repeat match goal with |- _ /\ _ => split end; try reflexivity; try easy; intuition congruence|].
  destruct (lookup str_eqb text (ggt_globs gt)); [do 8 eexists; repeat match goal with |- _ /\ _ => split end; try reflexivity; try easy; intuition congruence|].
  destruct (lookup Z.eqb i (ggt_index gt)), (lookup str_eqb (gg_node g) (ggt_globs gt)); do 8 eexists; repeat match goal with |- _ /\ _ => split end; try reflexivity; try easy; intuition congruence.
Qed.
(*EX
Example c41_add_glob_example : exists g gt1 gt2, gg_parse (B "a.{c,b}*") = Ok g /\ ggt_add ggt_new (B "a.{c,b}*") 3 = Ok (gt1, (B "a.{b,c}*", 3%Z, None)) /\
  ggt_add_glob ggt_new g 3 = (gt2, ([], 3%Z, None)) /\ ggt_match gt2 (B "a.cx") = Ok ([(B "a.{b,c}*", 3%Z)], 1) /\ gt1 <> gt2.
Proof. do 3 eexists. do 3 (split; [vm_compute; reflexivity|]). split; [vm_compute; reflexivity|discriminate]. Qed.
XE*)
(** C41: AddGlob, unlike Add, forgets the canonical text. *)
Lemma c41_add_glob_refuted_l : exists g gt, gg_parse (B "a.b") = Ok g /\ ggt_add_glob ggt_new g 1 = (gt, ([], 1%Z, None)) /\
  lookup Z.eqb 1%Z (ggt_index gt) = Some [] /\ lookup str_eqb [] (ggt_globs gt) = Some 1%Z.
Proof. do 2 eexists. split; [vm_compute; reflexivity|]. repeat match goal with |- _ /\ _ => split end; vm_compute; reflexivity. Qed.

Lemma history_tree calls gt rs E : run_adds ggt_add ggt_new calls = Ok (gt, rs) -> history gg_canon calls rs E -> tree_ok E gt.
Proof.
  intros R H. destruct (ggt_history calls) as (gt0 & rs0 & E0 & R0 & H0 & T). rewrite R in R0. injection R0 as <- <-. destruct (history_fun _ _ _ _ H _ _ H0) as [_ ->]. exact T.
Qed.
Lemma tree_none n root ps : lookup Nat.eqb n root = None -> ps <> [] -> gt_match_parts (tree_at n root) ps = Ok out_none.
Proof. intros H N. unfold tree_at. rewrite H. destruct ps; [easy|reflexivity]. Qed.
Lemma by_parts_at gt ps : ps <> [] -> ggt_match_by_parts gt ps = gt_match_parts (tree_at (length ps) (ggt_root gt)) ps.
Proof.
  intro N. unfold ggt_match_by_parts. replace (null ps) with false by now destruct ps. destruct (lookup Nat.eqb (length ps) (ggt_root gt)) eqn:L; [unfold tree_at; now rewrite L|]. now rewrite tree_none.
Qed.
Lemma match_at gt path : path <> [] -> ggt_match gt path = gt_match_items (tree_at (length (split_on dot (trim path))) (ggt_root gt)) (trim path).
Proof.
  intro N. unfold ggt_match. replace (null path) with false by now destruct path. rewrite path_level_trim by auto. unfold tree_at.
  destruct (lookup Nat.eqb (length (split_on dot (trim path))) (ggt_root gt)) eqn:L; auto. cbn. destruct (cut dot (trim path)) as [[a b] c]. now destruct (null a).
Qed.
(** C43: MatchByParts reports the same as Match. *)
Lemma c43_same_l : forall (gt : gglob_tree) (path : str) (ps : list str), parts_of path ps -> ~ In [] ps ->
  ggt_match_by_parts gt ps = ggt_match gt path.
Proof.
  intros gt path ps PO F. apply full_iff in F. assert (D : dotless ps) by apply PO. assert (N : ps <> []) by apply PO. apply parts_of_iff in PO as [Np E]. assert (Et : trim path = dotted ps) by (rewrite E; now rewrite dotted_split).
  rewrite by_parts_at, match_at by auto. rewrite <- E, Et. symmetry. now apply items_parts.
Qed.
(*EX
Example c43_same_example : exists gt rs, run_adds ggt_add ggt_new [(B "a.{c,b}", 5%Z); (B "*.c", 3%Z)] = Ok (gt, rs) /\
  ggt_match gt (B "a.c.") = Ok ([(B "a.{b,c}", 5%Z); (B "*.c", 3%Z)], 2) /\ ggt_match_by_parts gt [B "a"; B "c"] = Ok ([(B "a.{b,c}", 5%Z); (B "*.c", 3%Z)], 2).
Proof. do 2 eexists. split; [vm_compute; reflexivity|]. repeat match goal with |- _ /\ _ => split end; vm_compute; reflexivity. Qed.
XE*)
(** C43: with an empty part they differ. *)
Lemma c43_empty_part_refuted_l : exists gt rs, run_adds ggt_add ggt_new [(B "a.*", 5%Z)] = Ok (gt, rs) /\
  ggt_match gt (B "a..") = Ok ([], 0) /\ path_split (B "a..") = [B "a"; []] /\ ggt_match_by_parts gt [B "a"; []] = Ok ([(B "a.*", 5%Z)], 1).
Proof. do 2 eexists. split; [vm_compute; reflexivity|]. repeat match goal with |- _ /\ _ => split end; vm_compute; reflexivity. Qed.
(** C44: the count is the number of reports. *)
Lemma c44_count_l : forall (gt : gglob_tree) (l : list term) (n : nat),
  (forall path, ggt_match gt path = Ok (l, n) -> n = length l) /\ (forall ps, ggt_match_by_parts gt ps = Ok (l, n) -> n = length l).
Proof.
  intros gt l n. split.
  - intros path H. destruct path as [|c p]; [now injection H as <- <-|]. rewrite match_at in H by discriminate. apply (counted_items _ _ _ (le_n _)) in H. exact H.
  - intros ps H. destruct ps as [|c p]; [now injection H as <- <-|]. rewrite by_parts_at in H by discriminate. apply counted_parts in H. exact H.
Qed.
(*EX
Example c44_count_example : exists gt rs, run_adds ggt_add ggt_new [(B "a*.{c,b}?", 5%Z); (B "?x.*[0-9]", 2%Z); (B "a*.c", 3%Z)] = Ok (gt, rs) /\
  ggt_match gt (B "ax.b7") = Ok ([(B "a*.{b,c}?", 5%Z); (B "?x.*[0-9]", 2%Z)], 2) /\ ggt_match_by_parts gt [B "ab"; B "c"] = Ok ([(B "a*.c", 3%Z)], 1).
Proof. do 2 eexists. split; [vm_compute; reflexivity|]. split; vm_compute; reflexivity. Qed.
XE*)

(** C42: after any calls of Add, Match reports exactly the accepted globs that match part by part, each once, when the parts behave
    coherently on the parts of the path; a path with an empty part is not reported for anything. *)
Lemma c42_exact_l : forall (calls : list (str * Z)) (gt : gglob_tree) rs (E : list entry) (path : str) (ps : list str),
  run_adds ggt_add ggt_new calls = Ok (gt, rs) -> history gg_canon calls rs E -> parts_of path ps -> ~ In [] ps -> (forall s, In s ps -> coherent E s) ->
  exists l, ggt_match gt path = Ok (l, length l) /\ NoDup l /\
    forall q i, In (q, i) l <-> exists e g, In e E /\ e_node e = q /\ e_index e = i /\ gg_parse (e_text e) = Ok g /\ Forall2 part_matches (gg_parts g) ps.
Proof.
  intros calls gt rs E path ps R H PO F C. assert (T := history_tree _ _ _ _ R H). rewrite <- (c43_same_l gt path ps PO F). assert (N : ps <> []) by apply PO. rewrite by_parts_at by auto.
  now apply tree_match_parts.
Qed.
(** C42: a path with an empty part matches no glob of a tree. *)
Lemma c42_empty_l : forall (calls : list (str * Z)) (gt : gglob_tree) rs (E : list entry) (path : str) (ps : list str),
  run_adds ggt_add ggt_new calls = Ok (gt, rs) -> history gg_canon calls rs E -> parts_of path ps -> In [] ps -> (forall s, In s ps -> s <> [] -> coherent E s) ->
  ggt_match gt path = Ok ([], 0).
Proof.
  intros calls gt rs E path ps R H PO F C. assert (T := history_tree _ _ _ _ R H). destruct T as (MO & PE & TR).
  assert (D : dotless ps) by apply PO. assert (N : ps <> []) by apply PO. apply parts_of_iff in PO as [Np Ep]. assert (Et : trim path = dotted ps) by (rewrite Ep; now rewrite dotted_split).
  rewrite match_at by auto. rewrite <- Ep, Et. destruct (TR (length ps)) as [W Hh].
  refine (items_empty _ (MM E) ps _ N D F (W _) _ _).
  - intros ks L. destruct (holds ks (tree_at (length ps) (ggt_root gt))) eqn:Eh; auto. apply Hh in Eh as (e & g & _ & _ & _ & K & Lg & _). rewrite <- K, map_length in L. lia.
  - intros g s [P Ng] Is Ns. apply MM_ok; auto.
Qed.

Lemma gk_literal g gl : gk g -> glob_parse g = Ok gl -> g_items gl = [] -> forall w, denotes g w <-> w = symbols (g_node gl).
Proof.
  intros K H Ei w.
  rewrite <- (node_denotes g gl K H). destruct (parse_pieces g gl K H) as (p & s & mn & mx & rl & Eg & D1 & D2 & _). rewrite Eg in Ei |- *. rewrite finish_items in Ei. rewrite Ei, finish_node. cbn [map concat app].
  destruct (dl_app p s D1 D2) as [_ D]. specialize (D [] w). rewrite app_nil_r in D. rewrite D. split.
  - intros (w' & -> & E). apply denotes_nil in E. subst w'. now rewrite app_nil_r.
  - intros ->. exists []. split; [now rewrite app_nil_r|constructor].
Qed.
Lemma good_literal g gl : good_glob g -> glob_parse g = Ok gl -> g_items gl = [] -> forall w, denotes g w <-> w = symbols (g_node gl).
Proof. intros (C & Z & Dl & P & Q & _). apply gk_literal. split; [split; [auto|split; [exact Z|discriminate]]|auto]. Qed.

Lemma good_coherent E s : (forall e, In e E -> exists gs, accepted_parts (e_text e) gs /\ Forall good_glob gs) -> clean s \/ (forall e, In e E -> lone_parts (e_text e)) -> coherent E s.
Proof.
  intros G C.
  assert (K : forall g, part_of E g -> exists t, good_glob t /\ (clean s \/ lone_classes t) /\ glob_parse t = Ok g).
  { intros g (e & gg & Ie & P & Ig). destruct (G e Ie) as (gs & A & F). apply gg_parse_iff in P as (qs & gls & A' & P & ->). cbn in Ig.
    rewrite (accepted_fun _ _ _ A A') in P. assert (C' : clean s \/ Forall lone_classes gs) by (destruct C as [C|C]; [now left|right; exact (C e Ie gs A)]). clear - F P Ig C'. induction P; [easy|]. inversion F; subst. destruct Ig as [<-|Ig].
    - exists x. split; auto. split; auto. destruct C' as [|C']; auto. inversion C'; auto.
    - apply IHP; auto. destruct C' as [|C']; auto. inversion C'; auto. }
  split; [|split].
  - intros g P Ei. destruct (K g P) as (t & Gt & Ct & Pt). destruct (good_match t g s Gt Pt Ct) as (b & H & Hb). rewrite H. f_equal. unfold part_denotes in Hb. rewrite (good_literal t g Gt Pt Ei) in Hb.
    apply eq_true_iff_eq. rewrite Hb, str_eqb_eq. split; [|congruence]. intro X. rewrite <- (concat_symbols s), X. now rewrite concat_symbols.
  - intros g P. destruct (K g P) as (t & Gt & Ct & Pt). destruct (good_match t g s Gt Pt Ct) as (b & H & _). eauto.
  - intros g g' P P' N N' Eq. destruct (K g P) as (t & Gt & Ct & Pt), (K g' P') as (t' & Gt' & Ct' & Pt').
    destruct Gt as (C1 & Z1 & D1 & S1 & Q1 & R1), Gt' as (C2 & Z2 & D2 & S2 & Q2 & R2).
    apply (c28_same_node_l t t' g g'); auto. destruct Ct, Ct'; auto.
Qed.
(** C42: the same in terms of the glob texts: Match reports exactly the accepted globs whose parts denote the parts of the path. *)
Lemma c42_denotes_l : forall (calls : list (str * Z)) (gt : gglob_tree) rs (E : list entry) (path : str) (ps : list str),
  run_adds ggt_add ggt_new calls = Ok (gt, rs) -> history gg_canon calls rs E ->
  (forall e, In e E -> exists gs, accepted_parts (e_text e) gs /\ Forall good_glob gs) -> clean path \/ (forall e, In e E -> lone_parts (e_text e)) -> parts_of path ps ->
  exists l, ggt_match gt path = Ok (l, length l) /\ NoDup l /\
    forall q i, In (q, i) l <-> ~ In [] ps /\ exists e gs, In e E /\ e_node e = q /\ e_index e = i /\ accepted_parts (e_text e) gs /\ Forall2 part_denotes gs ps.
Proof.
  intros calls gt rs E path ps R H G C PO.
  assert (Cp : Forall clean ps \/ (forall e, In e E -> lone_parts (e_text e))). { destruct C as [C|C]; auto. left. destruct PO as (_ & _ & D & T). apply clean_parts; auto. eapply clean_trimmed; eauto. }
  assert (Co : forall s, In s ps -> coherent E s). { intros s I. apply good_coherent; auto. destruct Cp as [Cp|Cp]; auto. rewrite Forall_forall in Cp. auto. }
  assert (Cg : forall e gs, In e E -> accepted_parts (e_text e) gs -> Forall clean ps \/ Forall lone_classes gs) by (intros e gs Ie A; destruct Cp as [Cp|Cp]; auto; right; apply (Cp e Ie gs A)).
  destruct (in_dec (list_eq_dec Ascii.ascii_dec) [] ps) as [I|N].
  - exists []. rewrite (c42_empty_l calls gt rs E path ps R H PO I) by auto. split; [reflexivity|]. split; [constructor|]. intros q i. split; [easy|]. intros [N _]. easy.
  - destruct (c42_exact_l calls gt rs E path ps R H PO N Co) as (l & El & Nd & Hl). exists l. split; auto. split; auto. intros q i. rewrite Hl. split.
    + intros (e & g & Ie & En & Ei & P & F). split; auto. destruct (G e Ie) as (gs & A & Fg). exists e, gs. repeat split; auto.
      apply gg_parse_iff in P as (qs & gls & A' & P & ->). cbn in F. rewrite (accepted_fun _ _ _ A A') in P. apply (good_all gs gls ps); eauto. rewrite (forall2_length _ _ _ P). eapply forall2_length; eauto.
    + intros (_ & e & gs & Ie & En & Ei & A & F). assert (T := history_tree _ _ _ _ R H). destruct T as (_ & PE & _). destruct (PE e Ie) as (g & P & _). exists e, g. repeat split; auto.
      destruct (G e Ie) as (gs' & A2 & Fg). rewrite <- (accepted_fun _ _ _ A2 A) in *. clear gs' A2.
      apply gg_parse_iff in P as (qs & gls & A' & P & ->). cbn. rewrite (accepted_fun _ _ _ A A') in P. apply (good_all gs gls ps); eauto. eapply forall2_length; eauto.
Qed.
Lemma good_plain : forall g : str, clean g -> ~ In (byte_of 0) g -> ~ In (byte_of 127) g -> ~ In "{"%char g -> ~ In "["%char g -> good_glob g.
Proof.
  intros g C Z D N1 N2. unfold good_glob. do 3 (split; auto). split; [|split].
  - intros a body b E. exfalso. apply N1. rewrite E. apply in_or_app. right. now left.
  - intros a body b c E. exfalso. apply N2. rewrite E. apply in_or_app. right. now left.
  - apply regular_exact. intros a body b E. exfalso. apply N1. rewrite E. apply in_or_app. right. now left.
Qed.
Lemma clean_ascii : forall s : str, (forall c, In c s -> (code c < 128)%N) -> clean s.
Proof.
  induction s as [|c s IH]; intro H; [apply clean_nil|]. apply (clean_app [c]); [apply clean_byte; apply H; now left|]. apply IH. intros d I. apply H. now right.
Qed.
(*EX
Example c42_denotes_example : let E := [mkEntry (B "a*.{c,b}?") (B "a*.{b,c}?") 5%Z; mkEntry (B "?x.*[0-9ж]*") (B "?x.*[0-9ж]*") 2%Z] in exists gt rs,
  run_adds ggt_add ggt_new [(B "a*.{c,b}?", 5%Z); (B "?x.*[0-9ж]*", 2%Z)] = Ok (gt, rs) /\ history gg_canon [(B "a*.{c,b}?", 5%Z); (B "?x.*[0-9ж]*", 2%Z)] rs E /\
  (forall e, In e E -> exists gs, accepted_parts (e_text e) gs /\ Forall good_glob gs) /\
  ggt_match gt (B "ax.b7") = Ok ([(B "a*.{b,c}?", 5%Z); (B "?x.*[0-9ж]*", 2%Z)], 2) /\ ggt_match gt (B "axy.c7") = Ok ([(B "a*.{b,c}?", 5%Z)], 1).
Proof.
  cbv zeta. destruct (ggt_history [(B "a*.{c,b}?", 5%Z); (B "?x.*[0-9ж]*", 2%Z)]) as (gt & rs & E & R & H & _). exists gt, rs. split; [exact R|].
  destruct (history_entries _ _ _ _ H) as [EE _]. vm_compute in R. injection R as <- <-. vm_compute in EE. split; [rewrite EE in H; exact H|]. split; [|split; vm_compute; reflexivity].
  intros e [<-|[<-|[]]]; [exists [B "a*"; B "{c,b}?"]|exists [B "?x"; B "*[0-9ж]*"]]; (split; [|repeat (constructor; [apply good_glob_ok; vm_compute; reflexivity|]); constructor]); right;
    (split; [now intros [Z|[Z|[]]]|]); left; apply parts_of_iff; split; (discriminate || reflexivity).
Qed.
XE*)

(** C80: trees of dotted globs report only globs whose parts denote the parts of the path, whatever the lists of the parts look like
    and whatever the path. *)
Lemma c80_gtree_l : forall (calls : list (str * Z)) (gt : gglob_tree) rs (E : list entry),
  run_adds ggt_add ggt_new calls = Ok (gt, rs) -> history gg_canon calls rs E ->
  (forall e gs p, In e E -> accepted_parts (e_text e) gs -> In p gs ->
     clean p /\ ~ In (byte_of 0) p /\ ~ In (byte_of 127) p /\ plain_singles p /\ plain_classes p /\ calm_glob p) ->
  (forall path ps l n q i, parts_of path ps -> ggt_match gt path = Ok (l, n) -> In (q, i) l ->
     ~ In [] ps /\ exists e gs, In e E /\ e_node e = q /\ e_index e = i /\ accepted_parts (e_text e) gs /\ Forall2 part_denotes gs ps) /\
  (forall ps l n q i, ggt_match_by_parts gt ps = Ok (l, n) -> In (q, i) l ->
     exists e gs, In e E /\ e_node e = q /\ e_index e = i /\ accepted_parts (e_text e) gs /\ Forall2 part_denotes gs ps).
Proof.
  intros calls gt rs E R H Hp. destruct (history_tree _ _ _ _ R H) as (MO & PE & TR).
  assert (KP : forall g, part_of E g -> exists t, (clean t /\ ~ In (byte_of 0) t /\ ~ In (byte_of 127) t /\ plain_singles t /\ plain_classes t /\ calm_glob t) /\ glob_parse t = Ok g).
  { intros g (e & gg & Ie & P & Ig). apply gg_parse_iff in P as (qs & gls & A' & P & ->). cbn in Ig.
    assert (Hq : forall q, In q qs -> clean q /\ ~ In (byte_of 0) q /\ ~ In (byte_of 127) q /\ plain_singles q /\ plain_classes q /\ calm_glob q) by (intros q Iq; eapply Hp; eauto).
    clear - Hq P Ig. induction P as [|q g' qs gs Pq P IH]; [easy|]. destruct Ig as [<-|Ig]; [exists q; split; [apply Hq; now left|exact Pq]|]. apply IH; auto. intros y Iy. apply Hq. now right. }
  assert (KK : forall t, clean t /\ ~ In (byte_of 0) t /\ ~ In (byte_of 127) t /\ plain_singles t /\ plain_classes t /\ calm_glob t -> gk t).
  { intros t (C & Z & Dl & P & Q & _). split; [split; [auto|split; [exact Z|discriminate]]|auto]. }
  assert (FIN : forall ps ks q i, Forall2 (ms (fun g => part_of E g /\ g_items g <> [])) ks ps -> held E (length ps) ks (q, i) ->
    exists e gs, In e E /\ e_node e = q /\ e_index e = i /\ accepted_parts (e_text e) gs /\ Forall2 part_denotes gs ps).
  { intros ps ks q i F (e & g & Ie & P & Nd & Ks & L & Ex). injection Ex as -> ->. apply gg_parse_iff in P as (qs & gls & A & P & ->). cbn [gg_parts gg_node] in *.
    exists e, qs. split; auto. split; auto. split; auto. split; auto. subst ks.
    assert (Hq : forall q, In q qs -> clean q /\ ~ In (byte_of 0) q /\ ~ In (byte_of 127) q /\ plain_singles q /\ plain_classes q /\ calm_glob q) by (intros q Iq; eapply Hp; eauto).
    clear - F P Hq KP KK. revert ps F. induction P as [|q g qs gs Pq P IH]; intros ps F; inversion F as [|k p ks ps' Mk F' Ek]; subst; constructor.
    - assert (Q := Hq q (or_introl eq_refl)). unfold ms, gkey in Mk. cbn [fst snd] in Mk. unfold part_denotes. destruct (null (g_items g)) eqn:Nl.
      + rewrite (gk_literal q g (KK q Q) Pq) by (destruct (g_items g); easy). now subst p.
      + destruct Mk as (g' & [Pg' Ng'] & En & M). destruct (KP g' Pg') as (t & Q' & Pt). pose proof (KK t Q') as Kt. pose proof (KK q Q) as Kq.
        rewrite <- (node_denotes q g Kq Pq), <- En, (node_denotes t g' Kt Pt). destruct Q' as (C & Z & Dl & Ps & Pc & An). eapply c80_sound_l; eauto. now apply plain_not_star.
    - apply IH; auto. intros y Iy. apply Hq. now right. }
  split.
  - intros path ps l n q i PO M I. assert (D : dotless ps) by apply PO. assert (N : ps <> []) by apply PO. apply parts_of_iff in PO as [Np Ep].
    assert (Et : trim path = dotted ps) by (rewrite Ep; now rewrite dotted_split). rewrite match_at in M by auto. rewrite <- Ep, Et in M. destruct (TR (length ps)) as [W Hh].
    destruct (items_sound _ ps _ (l, n) (q, i) (W (length ps)) N D) as (Fp & ks & Hk & F); auto.
    + intros ks L. destruct (holds ks (tree_at (length ps) (ggt_root gt))) eqn:Eh; auto. apply Hh in Eh as (e & g & _ & _ & _ & K & Lg & _). rewrite <- K, map_length in L. lia.
    + split; [now apply full_iff|]. apply Hh in Hk. eapply FIN; eauto.
  - intros ps l n q i M I. destruct ps as [|p ps]; [cbn in M; injection M as <- <-; destruct I|]. assert (N : p :: ps <> []) by discriminate. rewrite by_parts_at in M by exact N. destruct (TR (length (p :: ps))) as [W Hh].
    destruct (parts_sound _ _ _ _ (q, i) (W _) N M I) as (ks & Hk & F). apply Hh in Hk. eapply FIN; eauto.
Qed.
(*EX
Example c80_gtree_example : let E := [mkEntry (B "x*.{a*,c}{d,*e}[f-h]*") (B "x*.{a*,c}{*e,d}[f-h]*") 5%Z; mkEntry (B "*y.a*") (B "*y.a*") 2%Z] in exists gt rs,
  run_adds ggt_add ggt_new [(B "x*.{a*,c}{d,*e}[f-h]*", 5%Z); (B "*y.a*", 2%Z)] = Ok (gt, rs) /\ history gg_canon [(B "x*.{a*,c}{d,*e}[f-h]*", 5%Z); (B "*y.a*", 2%Z)] rs E /\
  (forall e gs p, In e E -> accepted_parts (e_text e) gs -> In p gs ->
     clean p /\ ~ In (byte_of 0) p /\ ~ In (byte_of 127) p /\ plain_singles p /\ plain_classes p /\ calm_glob p) /\
  ggt_match gt (B "xy.a1behj") = Ok ([(B "x*.{a*,c}{*e,d}[f-h]*", 5%Z); (B "*y.a*", 2%Z)], 2).
Proof.
  cbv zeta. destruct (ggt_history [(B "x*.{a*,c}{d,*e}[f-h]*", 5%Z); (B "*y.a*", 2%Z)]) as (gt & rs & E & R & H & _). exists gt, rs. split; [exact R|].
  destruct (history_entries _ _ _ _ H) as [EE _]. vm_compute in R. injection R as <- <-. vm_compute in EE. split; [rewrite EE in H; exact H|]. split; [|vm_compute; reflexivity].
  assert (K : forall p, node_glob_b p && calm_glob_b p = true -> clean p /\ ~ In (byte_of 0) p /\ ~ In (byte_of 127) p /\ plain_singles p /\ plain_classes p /\ calm_glob p).
  { intros p Hp. apply andb_prop in Hp as [H1 H2]. apply calm_glob_ok in H2. destruct (node_glob_ok p H1) as (A1 & A2 & A3 & A4 & A5). auto 8. }
  intros e gs p [<-|[<-|[]]] A Ip.
  - assert (gs = [B "x*"; B "{a*,c}{d,*e}[f-h]*"]) as ->.
    { eapply accepted_fun; [|exact A]. right. split; [now intros [Z|[Z|[]]]|]. left. apply parts_of_iff. split; [discriminate|reflexivity]. }
    destruct Ip as [<-|[<-|[]]]; apply K; vm_compute; reflexivity.
  - assert (gs = [B "*y"; B "a*"]) as ->.
    { eapply accepted_fun; [|exact A]. right. split; [now intros [Z|[Z|[]]]|]. left. apply parts_of_iff. split; [discriminate|reflexivity]. }
    destruct Ip as [<-|[<-|[]]]; apply K; vm_compute; reflexivity.
Qed.
XE*)
