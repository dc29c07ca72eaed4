(** C38, C39, C42: dotted globs with stars inside list values. *)
From Coq Require Import Lia ZifyBool ZifyN ZifyNat.
From Verif Require Import Model.GGlob Spec.Symbols Spec.Class Spec.GlobSpec Spec.StarSpec Spec.ApartSpec Spec.Neat Spec.PathSpec Spec.RegistrySpec Spec.GGlobSpec Spec.SteadySpec Spec.FitSpec.
From Verif Require Import Proof.CheckP Proof.CheckNeatP Proof.PathP Proof.GGlobP Proof.RegistryP Proof.GTreeP Proof.CheckP Proof.GlobTop Proof.GGlobTop Proof.SteadyTop.

Lemma star_part g gl s : part_glob g -> glob_parse g = Ok gl -> clean s \/ lone_classes g -> exists b, glob_match gl s = Ok b /\ (b = true <-> part_denotes g s /\ fits gl s).
Proof. intros (C & Z & S & O & R) H Cs. apply (c21_stars_l g gl s); auto. Qed.
Lemma star_parts gs gls : Forall2 parses gs gls -> forall ps, Forall part_glob gs -> Forall clean ps \/ Forall lone_classes gs ->
  (Forall2 part_matches gls ps <-> Forall2 part_denotes gs ps /\ Forall2 fits gls ps).
Proof.
  intro P. induction P as [|g gl gs gls Pg P IH]; intros ps G C.
  - split; [intro F; inversion F; subst; split; constructor|intros [F _]; inversion F; constructor].
  - inversion G as [|? ? Gg Gs]; subst. destruct ps as [|p ps]; [split; [intro F|intros [F _]]; inversion F|].
    assert (Cp : clean p \/ lone_classes g) by (destruct C as [C|C]; inversion C; auto). assert (Cs : Forall clean ps \/ Forall lone_classes gs) by (destruct C as [C|C]; inversion C; auto).
    destruct (star_part g gl p Gg Pg Cp) as (b & H & Hb). specialize (IH ps Gs Cs). split.
    + intro F. inversion F as [|? ? ? ? M F2]; subst. apply IH in F2 as [F2 F3]. assert (X : b = true) by (red in M; congruence). apply Hb in X as [X Y]. split; constructor; auto.
    + intros [F F']. inversion F; inversion F'; subst. constructor; [red; rewrite H; f_equal; apply Hb; auto|]. apply IH. auto.
Qed.
Lemma star_calm g : part_glob g -> calm_glob g.
Proof. intros (C & _ & _ & _ & R). apply c25_calm_l. auto. Qed.
Lemma loop_gives gs : Forall (fun g => forall s, exists b, glob_match g s = Ok b) gs -> forall p, exists b, gg_match_loop gs p = Ok b.
Proof.
  induction 1 as [|g gs G _ IH]; intro p; cbn; [eauto|]. destruct (cut dot p) as [[a r] ?]. destruct (null a); [eauto|]. destruct (G a) as ([] & ->); cbn; eauto.
Qed.
Lemma parts_give gs : Forall (fun g => forall s, exists b, glob_match g s = Ok b) gs -> forall ps, length gs = length ps -> exists b, gg_match_parts_loop gs ps = Ok b.
Proof.
  induction 1 as [|g gs G _ IH]; intros [|p ps] L; cbn; try discriminate; [eauto|]. destruct (G p) as ([] & ->); cbn; eauto.
Qed.
Lemma all_give gs gls : Forall2 parses gs gls -> Forall part_glob gs -> Forall (fun g => forall s, exists b, glob_match g s = Ok b) gls.
Proof.
  induction 1 as [|g gl gs gls P _ IH]; intro G; constructor; inversion G; subst; auto. intro s. apply (c25_returns_l g); auto. now apply star_calm.
Qed.
Lemma parts_parse text gs g : accepted_parts text gs -> gg_parse text = Ok g -> Forall2 parses gs (gg_parts g).
Proof. intros A P. apply gg_parse_iff in P as (qs & gls & A' & P & ->). cbn. assert (qs = gs); [|congruence]. eapply accepted_fun; eauto. Qed.
Lemma path_clean path ps : parts_of path ps -> clean path -> Forall clean ps.
Proof. intros (_ & _ & D & T) C. apply clean_parts; auto. eapply clean_trimmed; eauto. Qed.

(** C38: for globs with stars anywhere in list values GGlob.Match gives an answer, and it accepts exactly the paths without an empty part
    that are denoted part by part, no part longer than the MaxLen of its glob and the whole not longer than that of the dotted glob. *)
Lemma c38_stars_l : forall (text : str) (gs : list str) (g : gglob) (path : str) (ps : list str),
  accepted_parts text gs -> Forall part_glob gs -> gg_parse text = Ok g -> clean path \/ lone_parts text -> parts_of path ps ->
  exists b, gg_match g path = Ok b /\
    (b = true <-> ~ In [] ps /\ Forall2 part_denotes gs ps /\ Forall2 fits (gg_parts g) ps /\ (gg_max g <= 0 \/ Z.of_nat (length (dotted ps)) <= gg_max g)%Z).
Proof.
  intros text gs g path ps A G P C PO. pose proof (parts_parse _ _ _ A P) as X.
  assert (Cp : Forall clean ps \/ Forall lone_classes gs) by (destruct C as [C|C]; [left; eapply path_clean; eauto|right; now apply C]).
  assert (Y : exists b, gg_match g path = Ok b).
  { unfold gg_match. destruct (null path); [eauto|]. destruct (path_level path) as [q n]. repeat match goal with |- context [if ?c then Ok false else _] => destruct c; [eauto|] end.
    apply loop_gives. eapply all_give; eauto. }
  destruct Y as (b & Y). exists b. split; auto.
  transitivity (gg_match g path = Ok true); [rewrite Y; split; [now intros ->|now intros [= ->]]|]. rewrite (c38_exact_l text g path P). split.
  - intros (ps' & PO' & N & F & L). assert (ps' = ps). { apply parts_of_iff in PO as [_ ->], PO' as [_ ->]. reflexivity. } subst ps'. split; auto.
    apply (star_parts gs _ X) in F as [F F']; auto.
  - intros (N & F & F' & L). exists ps. split; auto. split; auto. split; auto. apply (star_parts gs _ X); auto.
Qed.
(*EX
(** The list value 'a*b' has text after its star; the other value sets the MaxLen of the part. *)
Definition ft_text : str := B "x*.{a*b,cdef}[0-9]".
Definition ft_parts : list str := [B "x*"; B "{a*b,cdef}[0-9]"].
Lemma ft_part g : node_glob_b g && regular_stars_b g = true -> part_glob g.
Proof.
  intro H. apply andb_prop in H as [N R]. destruct (node_glob_ok g N) as (C & Z & _ & P & Q). split; [exact C|]. split; [exact Z|]. split; [exact P|]. split; [now apply plain_not_star|now apply regular_stars_ok].
Qed.
Lemma ft_accepted : accepted_parts ft_text ft_parts.
Proof. right. split; [now intros [Z|[Z|[]]]|]. left. apply parts_of_iff. split; [discriminate|reflexivity]. Qed.
Lemma ft_good : Forall part_glob ft_parts.
Proof. repeat (apply Forall_cons; [apply ft_part; vm_compute; reflexivity|]). apply Forall_nil. Qed.
Example c38_stars_example : exists g, accepted_parts ft_text ft_parts /\ Forall part_glob ft_parts /\ gg_parse ft_text = Ok g /\ gg_max g = (-1)%Z /\ map g_max (gg_parts g) = [(-1)%Z; 5%Z] /\
  clean (B "xy.ab7") /\ gg_match g (B "xy.ab7") = Ok true /\ gg_match g (B "xy.azb7") = Ok true /\ gg_match g (B "xy.azzzb7") = Ok false.
Proof.
  eexists. split; [exact ft_accepted|]. split; [exact ft_good|]. split; [vm_compute; reflexivity|]. do 2 (split; [vm_compute; reflexivity|]).
  split; [apply clean_b_ok; vm_compute; reflexivity|]. do 2 (split; [vm_compute; reflexivity|]). vm_compute; reflexivity.
Qed.
XE*)
(** C39: so does MatchByParts without a length, for the MaxLen of the parts. *)
Lemma c39_stars_l : forall (text : str) (gs : list str) (g : gglob) (ps : list str),
  accepted_parts text gs -> Forall part_glob gs -> gg_parse text = Ok g -> Forall clean ps \/ lone_parts text ->
  exists b, gg_match_by_parts g ps 0 = Ok b /\ (b = true <-> ps <> [] /\ Forall2 part_denotes gs ps /\ Forall2 fits (gg_parts g) ps).
Proof.
  intros text gs g ps A G P C. pose proof (parts_parse _ _ _ A P) as X.
  assert (Cp : Forall clean ps \/ Forall lone_classes gs) by (destruct C as [C|C]; auto).
  assert (Y : exists b, gg_match_by_parts g ps 0 = Ok b).
  { unfold gg_match_by_parts. destruct (null ps); [eauto|]. destruct (Nat.eqb_spec (length (gg_parts g)) (length ps)) as [L|L]; cbn [negb Z.ltb Z.compare andb]; [|eauto].
    apply parts_give; auto. eapply all_give; eauto. }
  destruct Y as (b & Y). exists b. split; auto.
  transitivity (gg_match_by_parts g ps 0 = Ok true); [rewrite Y; split; [now intros ->|now intros [= ->]]|]. rewrite c39_parts_l. rewrite (star_parts gs _ X) by auto. tauto.
Qed.
(*EX
Example c39_stars_example : exists g, accepted_parts ft_text ft_parts /\ Forall part_glob ft_parts /\ gg_parse ft_text = Ok g /\
  gg_match_by_parts g [B "xy"; B "azb7"] 0 = Ok true /\ gg_match_by_parts g [B "xy"; B "azzzb7"] 0 = Ok false.
Proof. eexists. split; [exact ft_accepted|]. split; [exact ft_good|]. split; [vm_compute; reflexivity|]. split; vm_compute; reflexivity. Qed.
XE*)
(** C42: and a GGlobTree of such globs, whose parts are read back from their normalised text, reports exactly those of which every part
    denotes the part of the path, no part longer than the MaxLen of its glob, each once. *)
Lemma c42_stars_l : forall (calls : list (str * Z)) (gt : gglob_tree) rs (E : list entry) (path : str) (ps : list str),
  run_adds ggt_add ggt_new calls = Ok (gt, rs) -> history gg_canon calls rs E ->
  (forall e gs p, In e E -> accepted_parts (e_text e) gs -> In p gs -> neat p /\ regular_stars p) -> clean path \/ (forall e, In e E -> lone_parts (e_text e)) -> parts_of path ps ->
  exists l, ggt_match gt path = Ok (l, length l) /\ NoDup l /\
    forall q i, In (q, i) l <-> ~ In [] ps /\ exists e g gs, In e E /\ e_node e = q /\ e_index e = i /\ accepted_parts (e_text e) gs /\ gg_parse (e_text e) = Ok g /\
      Forall2 part_denotes gs ps /\ Forall2 fits (gg_parts g) ps.
Proof.
  intros calls gt rs E path ps R H G C PO.
  assert (PG : forall p, neat p -> regular_stars p -> part_glob p) by (intros p (C1 & Z & _ & P & Q & _) Rs; split; [exact C1|]; split; [exact Z|]; split; [exact P|]; split; [now apply plain_not_star|exact Rs]).
  destruct (c42_steady_l calls gt rs E path ps R H) as (l & M & N & X); auto.
  { intros e Ie gs p A Ip. destruct (G e gs p Ie A Ip) as [Np Rp]. split; auto. apply star_calm, PG; auto. }
  exists l. split; auto. split; auto. intros q i. rewrite X. split; intros (Nm & K); (split; [exact Nm|]).
  - destruct K as (e & g & Ie & Eq & Ei & P & F). destruct (proj2 (c40_parse_l (e_text e)) g P) as (gs & A & Pg). exists e, g, gs. repeat (split; [assumption|]).
    apply (star_parts gs _ Pg); auto.
    + apply Forall_forall. intros p Ip. destruct (G e gs p Ie A Ip). auto.
    + destruct C as [C|C]; [left; eapply path_clean; eauto|right; now apply (C e)].
  - destruct K as (e & g & gs & Ie & Eq & Ei & A & P & F). exists e, g. repeat (split; [assumption|]). apply (star_parts gs _ (parts_parse _ _ _ A P)); auto.
    + apply Forall_forall. intros p Ip. destruct (G e gs p Ie A Ip). auto.
    + destruct C as [C|C]; [left; eapply path_clean; eauto|right; now apply (C e)].
Qed.
(*EX
Example c42_stars_example : let calls := [(ft_text, 1%Z); (B "x*.a*", 2%Z)] in exists gt rs E, run_adds ggt_add ggt_new calls = Ok (gt, rs) /\ history gg_canon calls rs E /\
  (forall e gs p, In e E -> accepted_parts (e_text e) gs -> In p gs -> neat p /\ regular_stars p) /\
  ggt_match gt (B "xy.azb7") = Ok ([(ft_text, 1%Z); (B "x*.a*", 2%Z)], 2) /\ ggt_match gt (B "xy.azzzb7") = Ok ([(B "x*.a*", 2%Z)], 1).
Proof.
  cbv zeta. destruct (ggt_history [(ft_text, 1%Z); (B "x*.a*", 2%Z)]) as (gt & rs & E & R & H & _). exists gt, rs, E. split; [exact R|]. split; [exact H|].
  destruct (history_entries _ _ _ _ H) as [EE _]. vm_compute in R. injection R as <- <-. split; [|split; vm_compute; reflexivity].
  assert (A2 : accepted_parts (B "x*.a*") [B "x*"; B "a*"]) by (right; split; [now intros [Z|[Z|[]]]|]; left; apply parts_of_iff; split; [discriminate|reflexivity]).
  vm_compute in EE. subst E. intros e gs p [<-|[<-|[]]] A Ip.
  - rewrite (accepted_fun _ _ _ ft_accepted A) in Ip. destruct Ip as [<-|[<-|[]]]; (split; [apply steady_ok|apply regular_stars_ok]; vm_compute; reflexivity).
  - rewrite (accepted_fun _ _ _ A2 A) in Ip. destruct Ip as [<-|[<-|[]]]; (split; [apply steady_ok|apply regular_stars_ok]; vm_compute; reflexivity).
Qed.
XE*)
