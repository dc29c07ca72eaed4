(** Reading the normalised text of a dotted glob again. *)
From Verif Require Import Model.GGlob Spec.Symbols Spec.Lang Spec.Safe Spec.Class Spec.GlobSpec Spec.Same Spec.Neat Spec.PathSpec Spec.GGlobSpec.
From Verif Require Import Proof.Utf8P Proof.ItemP Proof.AsciiSetP Proof.SymbolsP Proof.RangesP Proof.LangP Proof.SortP Proof.ListP Proof.DenotesP Proof.MatchP Proof.ParseP Proof.NextP Proof.GlobP Proof.SafeP Proof.TotalP Proof.PanicP Proof.NodeP Proof.OrderP Proof.PathP Proof.GGlobP Proof.RereadP.
From Coq Require Import Lia ZifyBool ZifyN ZifyNat.

Lemma neat_xk g : neat g -> xk g.
Proof. intros (C & Z & D & P & Q & NC & NL). split; auto. split; auto. split; auto. split; auto. discriminate. Qed.

Definition nodot (it : item) : Prop := ~ In dot (item_write it).
Lemma nodot_merge x y m : nice x /\ nodot x -> nice y /\ nodot y -> merge_last x y = Some m -> nice m /\ nodot m.
Proof.
  intros [Nx Dx] [Ny Dy] E. split; [now apply (nice_merge x y)|]. unfold nodot in *. rewrite merge_last_lit in E. destruct (lit_text x) as [a|] eqn:Ex, (lit_text y) as [b|] eqn:Ey.
  - injection E as <-. cbn [item_write]. rewrite (lit_write x a) in Dx by (auto; apply Nx). rewrite (lit_write y b) in Dy by (auto; apply Ny). intro I. apply in_app_or in I. tauto.
  - destruct y; try discriminate; destruct x; discriminate.
  - destruct y; try discriminate; destruct x; discriminate.
  - assert (R : forall n, ~ In dot (repeat "?"%char n)) by (intros n I; apply repeat_spec in I; discriminate).
    destruct y; try discriminate; destruct x; try discriminate; injection E as <-; cbn [item_write]; try apply R; intros [I|I]; try discriminate; revert I; apply R.
Qed.
Lemma next_nodot s it rest : xk s -> ends s -> ~ In dot s -> next_wildcard_item s = Ok (Some it, rest) -> nodot it.
Proof.
  intros (K & NC & NL) En Nd H. pose proof (next_nice s it rest (conj K (conj NC NL)) En H) as Ni. unfold next_wildcard_item in H. unfold nodot.
  destruct s as [|c0 s0] eqn:Es; [discriminate H|]. rewrite <- Es in *. clear c0 s0 Es.
  apply next_token in H as (a & T). remember (Some it) as oi eqn:Eo. remember (length s) as f eqn:Ef.
  destruct T as [body rest oi NB E|body rest oi NB E|n rest NS|rest|t c rest Nt Mt Mc|t Nt Mt].
  - subst oi. destruct K as (T & P & Q & D). rewrite bracketed_app in T, D, Nd.
    assert (Tb : tok true body). { change ("["%char :: body ++ "]"%char :: rest) with (["["%char] ++ (body ++ "]"%char :: rest)) in T. apply (tok_cons true "["%char) in T; [|now vm_compute]. now apply (tok_mid true "]"%char) in T. }
    assert (Db : ~ In del body). { intro I. apply D. right. apply in_or_app. now left. }
    intro I. apply (class_bytes body) in I; auto; [|now vm_compute|intros [X|[X|[X|[]]]]; discriminate]. apply Nd. right. apply in_or_app. now left.
  - subst oi. destruct E as [[_ E]|[Nb E]]; [discriminate|].
    assert (Tb : tok true body). { destruct K as (T & _). rewrite braced_app in T. apply (tok_cons true "{"%char) in T; [|now vm_compute]. now apply (tok_mid true "}"%char) in T. }
    destruct (NL [] body rest eq_refl NB) as (L1 & L2 & L3).
    assert (Nbd : ~ In dot body) by (intro I; apply Nd; rewrite braced_app; right; apply in_or_app; now left).
    assert (F : Forall (fun v => tok true v /\ tame v) (norm (split_on "," body))).
    { apply Forall_forall. intros v I. apply (proj1 (norm_in _ _)) in I. split; [now apply (tok_alt true body)|].
      apply alternative_split in I as (x & y & Ex & _). rewrite Ex in L1, L2, L3, NB. repeat split.
      - intro I. apply L1, in_or_app. right. apply in_or_app. now left.
      - intro I. apply NB, in_or_app. right. apply in_or_app. now left.
      - intros p q ->. apply (L2 (x ++ p) (q ++ y)). now rewrite <- !app_assoc.
      - intros p q ->. apply (L3 (x ++ p) (q ++ y)). now rewrite <- !app_assoc. }
    assert (Va : forall v, In v (norm (split_on "," body)) -> ~ In dot v).
    { intros v I J. apply (proj1 (norm_in _ _)) in I. apply alternative_split in I as (x & y & Ex & _). apply Nbd. rewrite Ex. apply in_or_app. right. apply in_or_app. now left. }
    assert (Si : forall v, norm (split_on "," body) = [v] -> has_wildcard v = false) by (intros v Ev; apply (plain_single_body body rest v); auto; apply K).
    destruct (list_text _ _ _ F Si E) as [[N L]|[Ew _]].
    + destruct L as [L| ->]; [|cbn; intros [X|[]]; discriminate].
      (* a literal: the only value *)
      unfold new_item_list in E. destruct (norm (split_on "," body)) as [|v [|v2 vals]] eqn:Ev; [discriminate| |].
      * destruct v as [|c v]; [discriminate|]. injection E as <-. rewrite single_write; [|inversion F as [|? ? [Tv _] _]; apply Tv|discriminate]. apply Va. now left.
      * exfalso. destruct (list_scan (v :: v2 :: vals) max_int 0 true as_empty) as [[[[mn mx] st] fi] [|]].
        -- unfold new_group in E. destruct (group_vals (next_item f) (v :: v2 :: vals)) as [[it0|[|x l]]|e| |] eqn:Eg; try discriminate; cbn [bind] in E.
           ++ injection E as <-. apply vals_early in Eg as ->. now apply L.
           ++ destruct (group_bounds l (item_min x) (item_max x)). injection E as <-. now apply L.
        -- destruct (mn =? 0)%Z; [destruct v; [|discriminate]|]; destruct st; injection E as <-; now apply L.
    + rewrite Ew. unfold braced. intros [X|I]; [discriminate|]. apply in_app_or in I as [I|[X|[]]]; [|discriminate]. apply in_join in I as [X|(v & I & J)]; [discriminate|]. now apply (Va v).
  - injection Eo as <-. cbn. intros [X|[]]; discriminate.
  - injection Eo as <-. cbn. intros [X|[]]; discriminate.
  - injection Eo as <-. destruct K as ((C & _) & _). destruct (clean_app_inv _ _ C) as [Ct _]; [apply bnd_ascii, metas_ascii, Mc|]. rewrite single_write by auto. intro I. apply Nd, in_or_app. now left.
  - injection Eo as <-. exact Nd.
Qed.
Lemma loop_nodot : forall f t P mn mx rl P' mn' mx' rl', xk t -> t = [] \/ ends t -> ~ In dot t -> ~ In dot P -> Forall (fun i => nice i /\ nodot i) rl ->
  parse_loop f t (P, mn, mx, rl) = Ok (P', mn', mx', rl') -> ~ In dot P' /\ Forall (fun i => nice i /\ nodot i) rl'.
Proof.
  induction f as [|f IH]; intros t P mn mx rl P' mn' mx' rl' K En Nd NP F H.
  { destruct t; [|discriminate]. now injection H as <- <- <- <-. }
  destruct t as [|c t]; [now injection H as <- <- <- <-|].
  cbn [parse_loop] in H. remember (c :: t) as s eqn:Es. assert (NE : s <> []) by (subst; discriminate). destruct En as [En|En]; [congruence|].
  destruct (next_wildcard_item s) as [[oi rest]|e| |] eqn:E; try discriminate.
  pose proof (next_item_spec true _ s oi rest (proj1 (proj1 K)) (proj1 (proj2 (proj1 K))) NE E) as ((a & Na & Ea & _) & Tr & _).
  assert (Kr : xk rest) by (rewrite Ea in K; now apply xk_rest in K). assert (Er : rest = [] \/ ends rest) by (rewrite Ea in En; now apply ends_rest in En).
  assert (Nr : ~ In dot rest) by (intro I; apply Nd; rewrite Ea; apply in_or_app; now right).
  destruct oi as [it|]; [|exact (IH _ _ _ _ _ _ _ _ _ Kr Er Nr NP F H)].
  pose proof (next_nice _ _ _ K En E) as Ni. pose proof (next_nodot _ _ _ K En Nd E) as Di.
  destruct (parse_step (P, mn, mx, rl) it) as [[[p1 n1] x1] r1] eqn:S1.
  assert (~ In dot p1 /\ Forall (fun i => nice i /\ nodot i) r1) as [D1 F1]; [|exact (IH _ _ _ _ _ _ _ _ _ Kr Er Nr D1 F1 H)].
  clear H. unfold parse_step in S1.
  assert (AP : forall mn mx, (P, mn, mx, append_item_rev rl it) = (p1, n1, x1, r1) -> ~ In dot p1 /\ Forall (fun i => nice i /\ nodot i) r1).
  { intros m1 m2 X. injection X as <- _ _ <-. split; auto. apply append_forall; auto. exact nodot_merge. }
  destruct rl as [|x rl]; [|destruct it; now apply AP in S1].
  destruct (lit_text it) as [t0|] eqn:Et.
  - assert (Ew := lit_write it t0 (proj1 Ni) Et). unfold nodot in Di. rewrite Ew in Di.
    assert (~ In dot (P ++ t0)) by (intro I; apply in_app_or in I; tauto).
    destruct it; try discriminate; injection Et as <-; injection S1 as <- _ _ <-; split; auto.
  - destruct it; try discriminate; now apply AP in S1.
Qed.
Lemma node_nodot g gl : xk g -> ~ In dot g -> glob_parse g = Ok gl -> ~ In dot (g_node gl).
Proof.
  intros K Nd H. pose proof K as ((T & P & Q & ND) & NC & NL).
  unfold glob_parse in H. destruct (index_wildcard g) as [pos|] eqn:Ei; [|apply ok_inj in H; now rewrite <- H].
  apply find_cut in Ei as (prefix & c & b0 & Eg & L & Pc & N).
  assert (F : firstn pos g = prefix /\ skipn pos g = c :: b0).
  { subst pos. rewrite Eg, firstn_app, skipn_app, firstn_all, skipn_all, Nat.sub_diag. cbn. now rewrite app_nil_r. }
  destruct F as [F1 F2]. rewrite F1, F2 in H. clear F1 F2 L pos.
  destruct (index_last_wildcard (c :: b0)) as [e|] eqn:Ee; [|discriminate].
  apply find_last_cut in Ee as (b1 & c' & suffix & Eb & L & Pc' & N').
  destruct (Nat.eqb e 0 && negb (Ascii.eqb (nth 0 (c :: b0) zero) "?") && negb (Ascii.eqb (nth 0 (c :: b0) zero) "*")); [discriminate|].
  assert (F : (if (e <? length (c :: b0) - 1)%nat then (skipn (S e) (c :: b0), firstn (S e) (c :: b0)) else ([], c :: b0)) = (suffix, b1 ++ [c'])).
  { rewrite Eb. subst e. destruct (cut_firstn b1 c' suffix) as [-> ->]. rewrite app_length. cbn [length].
    destruct (length b1 <? length b1 + S (length suffix) - 1)%nat eqn:E1; auto. destruct suffix; [reflexivity|cbn [length] in E1; lia]. }
  rewrite F in H. clear F L e. assert (Eg' : g = prefix ++ (b1 ++ [c']) ++ suffix) by (rewrite Eg, Eb, <- app_assoc; reflexivity).
  assert (Tp : tok true prefix /\ tok true (c :: b0)). { rewrite Eg in T. apply tok_app in T; auto. apply bnd_ascii, metas_ascii, is_wild_iff, Pc. }
  destruct Tp as [Tp Tb]. rewrite Eb in Tb. assert (Ac : (code c' < 128)%N) by apply metas_ascii, is_wild_iff, Pc'.
  assert (Tm : tok true (b1 ++ [c'])).
  { destruct (tok_mid true c' b1 suffix Ac Tb) as [T1 T2]. destruct T1 as (C1 & Z1 & A1). split; [|split].
    - apply clean_app; auto. now apply clean_byte.
    - destruct Tb as (_ & Z & _). intro I. apply Z. apply in_app_or in I. apply in_or_app. destruct I as [I|[->|[]]]; [now left|right; now left].
    - discriminate. }
  assert (Kb : xk (b1 ++ [c'])).
  { rewrite Eg' in P, Q, ND, NC, NL. split; [|split; [now apply neat_classes_part in NC|now apply neat_lists_part in NL]].
    split; auto. split; [now apply plain_part in P|]. split; [now apply plain_classes_part in Q|]. intro I. apply ND. apply in_or_app. right. apply in_or_app. now left. }
  assert (En : ends (b1 ++ [c'])) by (exists b1, c'; split; auto; now apply is_wild_iff).
  remember (b1 ++ [c']) as body eqn:Ebd. clear Ebd.
  assert (Np : ~ In dot prefix) by (intro I; apply Nd; rewrite Eg'; apply in_or_app; now left).
  assert (Nb : ~ In dot body) by (intro I; apply Nd; rewrite Eg'; apply in_or_app; right; apply in_or_app; now left).
  assert (Ns : ~ In dot suffix) by (intro I; apply Nd; rewrite Eg'; apply in_or_app; right; apply in_or_app; now right).
  assert (Fin : forall p s mn mx its, ~ In dot p -> ~ In dot s -> Forall nodot its -> ~ In dot (g_node (finish_glob g p s mn mx its))).
  { intros p s mn mx its Dp Ds Fi I. rewrite finish_node in I. apply in_app_or in I as [I|I]; [auto|]. apply in_app_or in I as [I|I]; [|auto].
    apply in_concat_map in I as (i & I & J). rewrite Forall_forall in Fi. now apply (Fi i). }
  destruct (str_eqb_spec body (B "*")) as [Eq|Ns1].
  { apply ok_inj in H. rewrite <- H. apply Fin; auto. repeat constructor. cbn. intros [X|[]]; discriminate. }
  destruct (str_eqb_spec body (B "?")) as [Eq|Ns2].
  { apply ok_inj in H. rewrite <- H. apply Fin; auto. repeat constructor. cbn. intros [X|[]]; discriminate. }
  destruct (parse_loop (length body) body (prefix, (zlen prefix + zlen suffix)%Z, (zlen prefix + zlen suffix)%Z, [])) as [[[[p1 n1] x1] r1]|e| |] eqn:El; try discriminate.
  cbn [bind] in H. destruct (take_suffix suffix r1) as [s2 r2] eqn:Et. apply ok_inj in H.
  apply loop_nodot in El as [D1 F1]; auto.
  assert (~ In dot s2 /\ Forall nodot r2) as [D2 F2].
  { assert (Fn : Forall nodot r1) by (eapply Forall_impl; [|exact F1]; cbn; tauto). unfold take_suffix in Et. destruct r1 as [|x [|y r]]; [injection Et as <- <-; auto|destruct x; injection Et as <- <-; auto|].
    inversion F1 as [|? ? [Nx Dx] _]; subst x0 l. inversion Fn as [|? ? _ Fn']; subst x0 l.
    destruct (lit_text x) as [t0|] eqn:Ex.
    - unfold nodot in Dx. rewrite (lit_write x t0 (proj1 Nx) Ex) in Dx. assert (~ In dot (t0 ++ suffix)) by (intro I; apply in_app_or in I; tauto).
      destruct x; try discriminate; injection Ex as <-; injection Et as <- <-; auto.
    - destruct x; try discriminate; injection Et as <- <-; auto. }
  rewrite <- H. apply Fin; auto. now apply Forall_rev.
Qed.

Definition same_glob (x y : glob) : Prop := same_parse (Ok x) (Ok y).
Lemma same_sums gs gs' : Forall2 same_glob gs gs' -> sum_min gs = sum_min gs' /\ (forall m, sum_max gs m = sum_max gs' m) /\ map g_node gs = map g_node gs'.
Proof.
  unfold sum_min, sum_max.   induction 1 as [|x y gs gs' (N & Mn & Mx & _) F (A & B & C)]; [auto|]. cbn [map fold_right fold_left]. rewrite A, C, Mn, N. repeat split; auto. intro m. now rewrite Mx, B.
Qed.
Lemma gg_again text g : (forall qs, accepted_parts text qs -> Forall neat qs) -> gg_parse text = Ok g -> ~ In [] (map g_node (gg_parts g)) ->
  exists g', gg_parse (gg_node g) = Ok g' /\ gg_node g' = gg_node g /\ gg_min g' = gg_min g /\ gg_max g' = gg_max g /\ Forall2 same_glob (gg_parts g') (gg_parts g).
Proof.
  intros Nt H Ne. apply gg_parse_iff in H as (qs & gs & A & F & ->). cbn [gg_parts gg_node gg_min gg_max] in *. specialize (Nt qs A).
  assert (Dl : dotless qs).
  { destruct text as [|c text]; [|now apply accepted_iff in A]. destruct A as [[_ ->]|[_ [P|P]]]; [intros x []| |]; destruct P as [P _]; easy. }
  assert (R : Forall2 (fun p g => ~ In dot p) (map g_node gs) gs /\ exists gs', Forall2 parses (map g_node gs) gs' /\ Forall2 same_glob gs' gs).
  { clear A Ne. induction F as [|q g qs gs Pq F IH]; [split; [constructor|exists []; split; constructor]|].
    inversion Nt as [|? ? Nq Nt']; subst. destruct IH as (R1 & gs' & R2 & R3); auto; [intros x I; apply Dl; now right|].
    assert (Kq := neat_xk q Nq). red in Pq. split.
    - cbn. constructor; auto. apply (node_nodot q); auto. apply (Dl q). now left.
    - pose proof (parse_again q g Kq Pq) as S. destruct (glob_parse (g_node g)) as [g'|e| |] eqn:E; try easy.
      exists (g' :: gs'). split; constructor; auto. }
  destruct R as (R1 & gs' & R2 & R3). destruct (same_sums _ _ R3) as (Sn & Sx & Sm).
  assert (exists ns, ns = map g_node gs) as (ns & Ens) by eauto. rewrite <- Ens in *. clear Ens.
  assert (Dn : dotless ns). { intros x I. clear - R1 I. induction R1; [destruct I|]. destruct I as [<-|I]; auto. }
  exists (mkGG (match dotted ns with [] => [] | _ => trim (dotted ns) end) (dotted (map g_node gs')) (sum_min gs') (sum_max gs' 0) gs'). split.
  - apply gg_parse_iff. exists ns, gs'. split; [|split; auto].
    assert (ns = [] \/ ns <> []) as [En|En] by (destruct ns; [now left|right; discriminate]); [left; rewrite En; split; reflexivity|]. right. split; auto. left. split.
    + intro X. apply En. apply dotted_nil; auto. intros p I ->. auto.
    + split; [auto|]. split; auto.
      apply trim_iff. unfold trim. destruct (last_is_dot (dotted ns)) eqn:Ld; auto. exfalso. apply last_dot_iff in Ld as (q & Eq).
      clear - Eq Dn Ne. revert q Eq. induction ns as [|n ns IH]; intros q Eq; [destruct q; discriminate|]. destruct ns as [|n2 ns].
      * cbn in Eq. apply (Dn n); [now left|]. rewrite Eq. apply in_or_app. right. now left.
      * rewrite dotted_cons in Eq by discriminate. destruct (dotted (n2 :: ns)) as [|z d] eqn:Ed using rev_ind.
        -- assert (n2 :: ns = []); [|discriminate]. apply dotted_nil; auto. intros p I ->. apply Ne. now right.
        -- clear IHd. apply (IH) with (q := d).
           ++ intro I. apply Ne. now right.
           ++ intros x I. apply Dn. now right.
           ++ rewrite app_comm_cons, app_assoc in Eq. apply app_inj_tail in Eq as [_ ->]. reflexivity.
  - cbn [gg_node gg_min gg_max gg_parts]. rewrite Sm, Sn, Sx. auto.
Qed.
