(** The tokenizer agrees with the text-level meaning. *)
From Verif Require Import Model.Glob Spec.Symbols Spec.Class Spec.GlobSpec Spec.Lang Spec.Safe.
From Verif Require Import Proof.Utf8P Proof.SymbolsP Proof.SortP Proof.AsciiSetP Proof.SkipP Proof.MergeP Proof.RangesP Proof.ClassSearchP Proof.RangesTop Proof.LangP Proof.ListP Proof.ItemP Proof.DenotesP Proof.MatchP.
From Coq Require Import Sorting.Sorted Lia ZifyBool ZifyN ZifyNat.

Definition simple (it : item) : Prop := one_item it \/ exists k, it = IStar k.

(** upper bounds *)
Definition zsum (f : item -> Z) (l : list item) : Z := fold_right (fun i a => (f i + a)%Z) 0%Z l.
Lemma zsum_app f a b : zsum f (a ++ b) = (zsum f a + zsum f b)%Z.
Proof. induction a as [|x a IH]; cbn; auto. unfold zsum in *. lia. Qed.
Definition star_free (l : list item) : Prop := forall k, ~ In (IStar k) l.
Definition wfm (it : item) : Prop :=
  match it with
  | IGroup vals _ mx =>
      ((-1 <= mx)%Z /\ (mx = -1 \/ Forall (fun v => item_max v <> -1 /\ item_max v <= mx) vals))%Z /\
      Forall (fun v => match v with
                       | IChain its _ mx => Forall simple its /\ (-1 <= mx)%Z /\ (star_free its -> mx = zsum item_max its)
                       | _ => simple v end) vals
  | IChain _ _ _ => False
  | _ => True
  end.

Definition olist (oi : option item) : list item := match oi with Some i => [i] | None => [] end.
Lemma dens_olist oi w : dens (olist oi) w <-> match oi with Some i => den i w | None => w = [] end.
Proof. destruct oi; [apply dens_one|reflexivity]. Qed.

(** texts *)
Section Tok.
Variable u : bool.
Definition tok (g : str) : Prop := clean g /\ ~ In zero g /\ (u = false -> lone_classes g).
Lemma tok_app a b : tok (a ++ b) -> bnd b -> tok a /\ tok b.
Proof.
  intros (C & Z & A) Hb. destruct (clean_app_inv _ _ C Hb) as [Ca Cb].
  split; (split; [auto|split; [intro; apply Z; apply in_or_app; auto|]]); intros U x body y r r' E; [apply (A U x body (y ++ b))|apply (A U (a ++ x) body y)]; rewrite E, <- !app_assoc; reflexivity.
Qed.
Lemma tok_nil : tok [].
Proof. split; [apply clean_nil|]. split; [easy|]. intros _ x body y r r' E. destruct x; discriminate. Qed.
Lemma tok_cons c p : (code c < 128)%N -> tok (c :: p) -> tok p.
Proof.
  intros L (C & Z & A). change (c :: p) with ([c] ++ p) in C. assert (B : clean p).
  { rewrite clean_symbols in *. cbn [app] in C. rewrite symbols_ascii in C by auto. now inversion C. }
  split; auto. split; [intro; apply Z; now right|]. intros U x body y r r' E. apply (A U (c :: x) body y). cbn [app]. now rewrite E.
Qed.
Lemma tok_cons_ascii c p : (code c < 128)%N -> tok (p ++ c :: []) -> tok p.
Proof. intros L T. apply tok_app in T; [tauto|]. now apply bnd_ascii. Qed.

Lemma tok_mid c (a b : str) : (code c < 128)%N -> tok (a ++ c :: b) -> tok a /\ tok b.
Proof.
  intros L T. apply tok_app in T as [Ta Tb]; [|now apply bnd_ascii]. split; auto. now apply tok_cons in Tb.
Qed.
Lemma tok_alt body v : tok body -> In v (split_on "," body) -> tok v.
Proof.
  intros T I. apply split_part in I as (a & b & -> & Hb & Ha).
  assert (T2 : tok (v ++ b)).
  { destruct Ha as [->|(a' & ->)]; auto. rewrite <- app_assoc in T. cbn [app] in T. apply tok_mid in T; [tauto|reflexivity]. }
  destruct Hb as [->|(b' & ->)]; [now rewrite app_nil_r in T2|]. apply tok_mid in T2; [tauto|reflexivity].
Qed.
Lemma plain_suffix a b : plain_singles (a ++ b) -> plain_singles b.
Proof. intros P x body y -> N S. apply (P (a ++ x) body y); auto. now rewrite <- !app_assoc. Qed.
Lemma plain_no_brace g : ~ In "}"%char g -> plain_singles g.
Proof. intros N a body b -> _ _. exfalso. apply N. rewrite braced_app. rewrite !in_app_iff. cbn. rewrite in_app_iff. cbn. tauto. Qed.

(** one symbol or literal *)
Lemma single_item_spec v : tok v -> v <> [] -> wfi u (single_item v) /\ wfm (single_item v) /\ literal_item (single_item v) /\ (forall w, den (single_item v) w <-> w = symbols v) /\
  item_min (single_item v) = zlen v /\ item_max (single_item v) = zlen v.
Proof.
  intros (C & _) NE. unfold single_item. destruct (clean_decode v C NE) as (r & t & S & Ct & E & D). rewrite D.
  destruct (Nat.eqb_spec (length (encode_rune r)) (length v)) as [L|L].
  - assert (t = []) as -> by (rewrite E, app_length in L; destruct t; [auto|cbn in L; lia]). rewrite app_nil_r in E. subst v.
    rewrite symbols_rune by auto. unfold zlen. rewrite encode_len_valid by apply S. destruct (N.leb_spec r 127) as [Lr|Lr].
    + rewrite encode_ascii by lia. cbn. rewrite code_byte_of by lia. repeat split; auto; try lia; try (unfold rune_len; replace (r <? 128)%N with true by lia; reflexivity).
    + repeat split; auto; try apply S.
  - repeat split; auto.
Qed.

(** classes *)
Lemma class_symbol_in body rs x : clean body -> ranges_expand (bracketed body) = Some rs ->
  (class_symbol rs x <-> exists r, scalar r /\ x = encode_rune r /\ in_class body r).
Proof.
  intros C E. destruct (ranges_expand_ok _ _ C E) as (_ & _ & _ & D). unfold class_symbol.
  split; intros (r & S & X & Y); exists r; repeat split; try apply S; auto; now apply D.
Qed.
Definition class_item (body : str) : res (option item) :=
  match ranges_expand (bracketed body) with
  | None => Err (ErrNodeMissmatch (B "rune") (bracketed body))
  | Some rs =>
      let '(n, c) := as_count (rr_ascii rs) in
      if Nat.eqb n 0 && null (rr_unicode rs) then Ok None
      else if null (rr_unicode rs) && Nat.eqb n 1 then Ok (Some (IByte c))
      else match rr_unicode rs with
           | [r] => if Nat.eqb n 0 && (First r =? Last r)%N
                    then Ok (Some (IRune (First r)))
                    else Ok (Some (IRanges rs))
           | _ => Ok (Some (IRanges rs))
           end
  end.
Definition opt_ok (oi : option item) : Prop := match oi with Some i => wfi u i /\ wfm i | None => True end.
Definition lone (body : str) : Prop := forall r r', in_class body r -> in_class body r' -> (128 <= r)%N -> r' = r.
Lemma class_item_spec body oi : tok body -> (u = false -> lone body) -> class_item body = Ok oi ->
  opt_ok oi /\ (match oi with Some i => literal_item i | None => True end) /\
  forall w, dens (olist oi) w <-> ((exists r, scalar r /\ in_class body r /\ w = [encode_rune r]) \/ ((forall r, ~ in_class body r) /\ w = [])).
Proof.
  intros (C & NZ & _) A H. unfold class_item in H. destruct (ranges_expand (bracketed body)) as [rs|] eqn:E; [|discriminate].
  destruct (ranges_expand_ok _ _ C E) as (Fin & Sz & _ & D).
  assert (D' : forall r, in_class body r <-> mem rs r) by (intro r; rewrite <- D; now apply fin_contains).
  assert (NZ' : ~ in_class body 0%N) by (intro I; now apply NZ, in_class_zero).
  destruct Fin as (AO & UO & SO). 
  pose proof (count_eq (rr_ascii rs) AO) as CE. pose proof (fun c => count_members (rr_ascii rs) c AO) as CM.
  assert (MA : forall r, (r <= 127)%N -> (in_class body r <-> In (byte_of r) (filter (as_contains (rr_ascii rs)) (bytes_from 1 127)))).
  { intros r L. rewrite CM, D'. unfold mem. replace (r <=? 127)%N with true by lia. split; [|tauto]. intro M. split; auto. intro Z0. apply NZ'.
    assert (r = 0)%N by (apply (f_equal code) in Z0; rewrite code_byte_of in Z0 by lia; exact Z0). subst r. apply D'. exact M. }
  assert (MU : forall r, (127 < r)%N -> (in_class body r <-> in_ranges r (rr_unicode rs))).
  { intros r L. rewrite D'. unfold mem. now replace (r <=? 127)%N with false by lia. }
  assert (RS : (u = false -> rr_unicode rs = []) -> wfi u (IRanges rs) \/ rr_min rs = 0%Z).
  { intro RU. destruct Sz as [B [(Z0 & _)|((r & S & M & Lr) & _)]]; auto. left. split; [exact RU|split].
    - pose proof (rune_len_pos r (proj1 S)). specialize (B r (proj1 S) M). lia.
    - intros x (r0 & S0 & -> & Cx). unfold zlen. rewrite encode_len_valid by apply S0. apply B; [apply S0|]. apply D', D. exact Cx. }
  assert (RM : rr_min rs = 0%Z -> forall r, ~ in_class body r).
  { intros Z0 r I. destruct Sz as [_ [(_ & _ & N)|((r0 & S & M & Lr) & _)]]; [apply (N r); now apply D'|].
    pose proof (rune_len_pos r0 (proj1 S)). lia. }
  assert (RD : forall w, den (IRanges rs) w <-> exists r, scalar r /\ in_class body r /\ w = [encode_rune r]).
  { intro w. cbn [den]. split.
    - intros (x & -> & X). apply (class_symbol_in body rs x C E) in X as (r & S & -> & I). eauto.
    - intros (r & S & I & ->). exists (encode_rune r). split; auto. apply (class_symbol_in body rs _ C E). eauto. }
  revert H. rewrite CE. revert CM MA. generalize (filter (as_contains (rr_ascii rs)) (bytes_from 1 127)). intros ms CM MA.
  destruct (rr_unicode rs) as [|q l] eqn:Eu; cbn [null]; rewrite ?andb_true_r, ?andb_false_r.
  - assert (NU : forall r, in_class body r -> (r <= 127)%N).
    { intros r I. destruct (N.le_gt_cases r 127) as [|G]; auto. apply MU in I as (q & [] & _). lia. }
    destruct ms as [|c ms]; cbn [length Nat.eqb hd andb].
    + intros [= <-]. split; [exact I|]. split; [exact I|]. intro w. cbn. 
      assert (N : forall r, ~ in_class body r) by (intros r I; apply (MA r (NU r I)); exact I).
      split; [intros ->; right; auto|]. intros [(r & _ & I & _)|[_ ->]]; auto. now apply N in I.
    + assert (Ic : as_contains (rr_ascii rs) c = true /\ c <> zero) by (apply CM; now left).
      assert (Lc : (code c < 128)%N) by (destruct Ic as [Ic _]; rewrite contains_bit in Ic; lia).
      destruct ms as [|d ms]; cbn [length Nat.eqb].
      * intros [= <-]. split; [split; [exact Lc|exact I]|]. split; [exact I|]. intro w. rewrite dens_olist. cbn [den].
        assert (U : forall r, in_class body r <-> r = code c).
        { intro r. split.
          - intro J. pose proof (NU r J) as L. apply MA in J; auto. destruct J as [J|[]]. rewrite J, code_byte_of; lia.
          - intros ->. apply MA; [lia|]. rewrite byte_of_code. now left. }
        split.
        -- intros ->. left. exists (code c). assert (clean [c]) as Cc by now apply clean_byte.
           repeat split; [unfold valid_rune; lia|unfold RuneError; lia|now apply U|now rewrite string_byte_ascii].
        -- intros [(r & S & J & ->)|[N _]]; [|exfalso; apply (N (code c)); now apply U].
           apply U in J. subst r. now rewrite string_byte_ascii.
      * intros [= <-]. destruct (RS (fun _ => eq_refl)) as [RS'|RS']; [|exfalso; apply (RM RS' (code c)); apply MA; [lia|]; rewrite byte_of_code; now left].
        split; [split; [exact RS'|exact I]|]. split; [exact I|]. intro w. rewrite dens_olist, RD. split; [auto|].
        intros [X|[N _]]; auto. exfalso. apply (N (code c)). apply MA; [lia|]. rewrite byte_of_code. now left.
  - assert (Iq : in_class body (First q)).
    { apply D'. unfold mem. inversion UO as [|? ? [G1 G2] _]; subst. replace (First q <=? 127)%N with false by lia.
      exists q. rewrite Eu. split; [now left|]. split; lia. }
    assert (GR : (u = false -> False) -> Ok (Some (IRanges rs)) = Ok oi -> opt_ok oi /\ (match oi with Some i => literal_item i | None => True end) /\
      forall w, dens (olist oi) w <-> ((exists r, scalar r /\ in_class body r /\ w = [encode_rune r]) \/ ((forall r, ~ in_class body r) /\ w = []))).
    { intros Nu [= <-]. destruct RS as [RS'|RS']; [intro U; now elim (Nu U)| |exfalso; now apply (RM RS' (First q))].
      split; [split; [exact RS'|exact I]|]. split; [exact I|]. intro w. rewrite dens_olist, RD. split; [auto|].
      intros [X|[N _]]; auto. exfalso. now apply (N (First q)). }
    assert (Bq : (127 < First q <= Last q)%N) by (inversion UO as [|? ? [G1 G2] _]; subst; lia).
    assert (One : u = false -> forall r, in_class body r -> r = First q) by (intros U r J; apply (A U (First q) r); auto; lia).
    cbn [andb]. destruct l as [|q2 l].
    2:{ apply GR. intro U. assert (J : in_class body (First q2)).
        { inversion UO as [|? ? _ UO']; subst. inversion UO' as [|? ? [G1 G2] _]; subst. apply MU; [lia|]. exists q2. split; [right; now left|]. split; lia. }
        apply (One U) in J. inversion SO as [|? ? _ SF]; subst. inversion SF as [|? ? SQ _]; subst. unfold sep in SQ. lia. }
    destruct ms as [|c ms]; cbn [length Nat.eqb andb].
    2:{ apply GR. intro U. assert (Lc : (code c < 128)%N) by (destruct (proj1 (CM c) (or_introl eq_refl)) as [Ic _]; rewrite contains_bit in Ic; lia).
        assert (J : in_class body (code c)) by (apply MA; [lia|]; rewrite byte_of_code; now left). apply (One U) in J. lia. }
    destruct (N.eqb_spec (First q) (Last q)) as [EL|NL].
    2:{ apply GR. intro U. assert (J : in_class body (Last q)) by (apply MU; [lia|]; exists q; split; [now left|]; unfold in_range; lia). apply (One U) in J. lia. }
    intros [= <-].
    pose proof (expand_ends body rs C E) as EE. rewrite Eu in EE. inversion EE as [|? ? [S1 S2] _]; subst.
    split; [split; [exact S1|exact I]|]. split; [exact I|]. intro w. rewrite dens_olist. cbn [den].
    inversion UO as [|? ? [G1 G2] _]; subst.
    assert (U : forall r, in_class body r <-> r = First q).
    { intro r. split; [|intros ->; auto]. intro J. destruct (N.le_gt_cases r 127) as [L|L].
      - apply MA in J; auto. destruct J.
      - apply MU in J as (q' & J & R1 & R2); auto. destruct J as [<-|[]]. lia. }
    split.
    + intros ->. left. exists (First q). auto.
    + intros [(r & S & J & ->)|[N _]]; [|exfalso; now apply (N (First q))]. apply U in J. now subst r.
Qed.

(** Classes of ASCII text. *)
Lemma in_class_ascii body r : (forall c, In c body -> (code c < 128)%N) -> in_class body r -> (r < 128)%N.
Proof.
  intros A (l0 & ps & F & Eb & CP & a & b & Ip & L). pose proof (pairs_scalar _ _ CP F) as PS.
  rewrite Forall_forall in PS. specialize (PS _ Ip) as [Sa Sb]. cbn in Sa, Sb.
  assert (J : In b l0).
  { clear - CP Ip. induction CP as [|t ps CP IH|c t ps D H CP IH|c ds D H|c ds d t ps D NE H D' CP IH].
    - easy.
    - right. auto.
    - destruct Ip as [[= _ ->]|I]; [now left|]. right. auto.
    - destruct Ip as [[= _ ->]|[]]. now left.
    - destruct Ip as [[= _ ->]|I]; right; apply in_or_app; right; [now left|]. right. auto. }
  destruct (encode_head b (proj1 Sb)) as (hb & tl & Ehb & [(Lb & _)|(_ & Lb)]); [lia|].
  assert (K : In hb body). { rewrite Eb. apply in_concat. exists (encode_rune b). split; [now apply in_map|]. rewrite Ehb. now left. }
  apply A in K. lia.
Qed.
Lemma ascii_lone g : (forall c, In c g -> (code c < 128)%N) -> lone_classes g.
Proof.
  intros A a body b r r' -> _ I _ G. apply in_class_ascii in I; [lia|]. intros c J. apply A. rewrite bracketed_app. apply in_or_app. right. right. apply in_or_app. now left.
Qed.

Lemma no_class_lone g : ~ In "["%char g -> lone_classes g.
Proof. intros N a body b r r' E. exfalso. apply N. rewrite E. apply in_or_app. right. now left. Qed.

(** merging items *)
Lemma string_of_byte_ascii b : (code b < 128)%N -> string_of_byte b = [b].
Proof. apply string_byte_ascii. Qed.
Lemma any_split (w : list str) m n : length w = m + n <-> exists w1 w2, w = w1 ++ w2 /\ length w1 = m /\ length w2 = n.
Proof.
  split.
  - intro L. exists (firstn m w), (skipn m w). rewrite firstn_skipn, firstn_length, skipn_length. repeat split; lia.
  - intros (w1 & w2 & -> & L1 & L2). rewrite app_length. lia.
Qed.
Lemma star_any_split (w : list str) m n : m + n <= length w <-> exists w1 w2, w = w1 ++ w2 /\ m <= length w1 /\ length w2 = n.
Proof.
  split.
  - intro L. exists (firstn (length w - n) w), (skipn (length w - n) w). rewrite firstn_skipn, firstn_length, skipn_length. repeat split; lia.
  - intros (w1 & w2 & -> & L1 & L2). rewrite app_length. lia.
Qed.
Lemma any_star_split (w : list str) m n : n + m <= length w <-> exists w1 w2, w = w1 ++ w2 /\ length w1 = m /\ n <= length w2.
Proof.
  split.
  - intro L. exists (firstn m w), (skipn m w). rewrite firstn_skipn, firstn_length, skipn_length. repeat split; lia.
  - intros (w1 & w2 & -> & L1 & L2). rewrite app_length. lia.
Qed.
Lemma star_star_split (w : list str) m n : m + n <= length w <-> exists w1 w2, w = w1 ++ w2 /\ m <= length w1 /\ n <= length w2.
Proof.
  split.
  - intro L. exists (firstn m w), (skipn m w). rewrite firstn_skipn, firstn_length, skipn_length. repeat split; lia.
  - intros (w1 & w2 & -> & L1 & L2). rewrite app_length. lia.
Qed.
Definition not_star (it : item) : Prop := match it with IStar _ => False | _ => True end.
Definition lit_text (it : item) : option str :=
  match it with IStr s => Some s | IByte b => Some (string_of_byte b) | IRune r => Some (encode_rune r) | _ => None end.
Lemma lit_text_spec it t : wfi u it -> lit_text it = Some t -> clean t /\ (forall w, den it w <-> w = symbols t) /\
  item_min it = zlen t /\ item_max it = zlen t /\ literal_item it.
Proof.
  intros W E. destruct it; try discriminate; cbn in E; injection E as <-.
  - split; [exact W|]. split; [reflexivity|]. cbn. auto.
  - cbn in W. rewrite string_of_byte_ascii by auto. assert (clean [b]) by now apply clean_byte.
    assert (E : symbols [b] = [[b]]) by (rewrite symbols_ascii by auto; reflexivity). split; [assumption|]. split; [intro; rewrite E; reflexivity|]. cbn; auto.
  - cbn in W. assert (clean (encode_rune r)) by now apply clean_encode. rewrite symbols_rune by auto. split; [assumption|]. split; [reflexivity|].
    cbn [item_min item_max literal_item]. unfold zlen.
    rewrite encode_len_valid by apply W. auto.
Qed.
Lemma merge_last_lit last it : merge_last last it =
  match lit_text last, lit_text it with
  | Some a, Some b => Some (IStr (a ++ b))
  | _, _ => match it, last with
            | IAny n, IAny m => Some (IAny (m + n))
            | IAny n, IStar m => Some (IStar (m + n))
            | IStar n, IAny m => Some (IStar (n + m))
            | IStar n, IStar m => Some (IStar (m + n))
            | _, _ => None end
  end.
Proof. destruct it, last; reflexivity. Qed.
Lemma merge_spec last it m : wfi u last -> wfi u it -> merge_last last it = Some m ->
  wfi u m /\ (forall w, den m w <-> exists w1 w2, w = w1 ++ w2 /\ den last w1 /\ den it w2) /\
  item_min m = (item_min last + item_min it)%Z /\ simple m /\ wfm m /\
  (not_star m -> not_star last /\ not_star it /\ item_max m = (item_max last + item_max it)%Z) /\
  (not_star last -> not_star it -> not_star m) /\
  (literal_item last <-> literal_item m).
Proof.
  intros Wl Wi. rewrite merge_last_lit. destruct (lit_text last) as [a|] eqn:Ea; [destruct (lit_text it) as [b|] eqn:Eb|].
  - intros [= <-]. destruct (lit_text_spec _ _ Wl Ea) as (Ca & Da & Ma & Xa & La). destruct (lit_text_spec _ _ Wi Eb) as (Cb & Db & Mb & Xb & Lb).
    cbn [wfi den item_min item_max not_star literal_item simple one_item wfm].
    split; [now apply clean_app|]. split.
    { intro w. rewrite symbols_clean_app by auto. split.
      - intros ->. exists (symbols a), (symbols b). rewrite Da, Db. auto.
      - intros (w1 & w2 & -> & D1 & D2). apply Da in D1. apply Db in D2. now subst. }
    rewrite Ma, Mb, Xa, Xb. unfold zlen. rewrite app_length. split; [lia|]. split; [left; exact I|]. split; [exact I|]. split.
    { intros _. repeat split; try lia; destruct last, it; easy. }
    split; [easy|tauto].
  - destruct it as [| | |n|n| | | |], last; discriminate.
  - destruct it as [| | |n|n| | | |], last as [| | |k|k| | | |]; try discriminate; intros [= <-];
      cbn [wfi den item_min item_max not_star literal_item simple one_item wfm]; (split; [exact I|]).
    + split; [intro; apply any_split|]. split; [lia|]. split; [left; exact I|]. split; [exact I|]. split; [intros _; repeat split; lia|]. split; [easy|tauto].
    + split; [intro; apply star_any_split|]. split; [lia|]. split; [right; eauto|]. repeat split; try easy; tauto.
    + split; [intro; apply any_star_split|]. split; [lia|]. split; [right; eauto|]. repeat split; try easy; tauto.
    + split; [intro; apply star_star_split|]. split; [lia|]. split; [right; eauto|]. repeat split; try easy; tauto.
Qed.

Lemma star_free_cons i l : star_free (i :: l) <-> not_star i /\ star_free l.
Proof.
  unfold star_free. split.
  - intro H. split; [destruct i; try exact I; elim (H n); now left|]. intros k I. apply (H k). now right.
  - intros [A C] k [->|I]; [exact A|now apply (C k)].
Qed.
Lemma append_spec rl it : Forall (wfi u) rl -> wfi u it ->
  Forall (wfi u) (append_item_rev rl it) /\
  (forall w, dens (rev (append_item_rev rl it)) w <-> exists w1 w2, w = w1 ++ w2 /\ dens (rev rl) w1 /\ den it w2) /\
  zsum item_min (append_item_rev rl it) = (zsum item_min rl + item_min it)%Z /\
  (Forall simple rl -> simple it -> Forall simple (append_item_rev rl it)) /\
  (Forall wfm rl -> wfm it -> Forall wfm (append_item_rev rl it)) /\
  (star_free (append_item_rev rl it) -> star_free rl /\ not_star it /\ zsum item_max (append_item_rev rl it) = (zsum item_max rl + item_max it)%Z).
Proof.
  intros Wr Wi. unfold append_item_rev. destruct rl as [|last r].
  - cbn [rev app]. split; [now constructor|]. split.
    { intro w. rewrite dens_one. split; [intro D; exists [], w; repeat split; auto|]. intros (w1 & w2 & -> & D1 & D). cbn in D1. subst w1. exact D. }
    split; [cbn; lia|]. split; [intros; now constructor|]. split; [intros; now constructor|]. 
    rewrite star_free_cons. intros [A _]. repeat split; auto; try (intros ? []); cbn; lia.
  - inversion Wr as [|? ? Wl Wr']; subst. destruct (merge_last last it) as [m|] eqn:E.
    + destruct (merge_spec last it m Wl Wi E) as (Wm & D & Mn & Sm & Xm & St & St' & _).
      split; [now constructor|]. split.
      { intro w. cbn [rev]. rewrite dens_app. split.
        - intros (w1 & w2 & -> & D1 & D2). apply (proj1 (dens_one _ _)) in D2. apply D in D2 as (w3 & w4 & -> & D3 & D4). 
          exists (w1 ++ w3), w4. rewrite app_assoc. repeat split; auto. apply dens_app. exists w1, w3. rewrite dens_one. auto.
        - intros (w1 & w2 & -> & D1 & D2). apply dens_app in D1 as (w3 & w4 & -> & D3 & D4). apply (proj1 (dens_one _ _)) in D4.
          exists w3, (w4 ++ w2). rewrite app_assoc. repeat split; auto. rewrite dens_one. apply D. eauto. }
      split; [cbn [zsum fold_right]; fold (zsum item_min r); lia|].
      split; [intros F _; inversion F; subst; now constructor|]. split; [intros F _; inversion F; subst; now constructor|].
      rewrite !star_free_cons. intros [A C]. apply St in A as (A1 & A2 & A3). repeat split; auto. cbn [zsum fold_right]; fold (zsum item_max r). lia.
    + split; [now constructor|]. split.
      { intro w. change (rev (it :: last :: r)) with (rev (last :: r) ++ [it]). rewrite dens_app. split; intros (w1 & w2 & -> & D1 & D2); exists w1, w2; rewrite ?dens_one in *; auto. }
      split; [cbn [zsum fold_right]; fold (zsum item_min r); lia|]. split; [intros; now constructor|]. split; [intros; now constructor|].
      rewrite !star_free_cons. intros (A & A2 & C). repeat split; auto. cbn [zsum fold_right]; fold (zsum item_max r). lia.
Qed.

(** what a tokenizer must do *)
Definition tspec (nwi : str -> res (option item * str)) : Prop := forall s oi rest,
  tok s -> plain_singles s -> s <> [] -> nwi s = Ok (oi, rest) ->
  (exists a, a <> [] /\ s = a ++ rest /\
    forall q w, denotes (a ++ q) w <-> exists w1 w2, w = w1 ++ w2 /\ dens (olist oi) w1 /\ denotes q w2) /\
  tok rest /\ opt_ok oi /\
  (~ In "}"%char s -> match oi with Some i => simple i | None => True end).

Definition chain_inv (rl : list item) (mn mx : Z) : Prop :=
  Forall (wfi u) rl /\ Forall simple rl /\ mn = zsum item_min rl /\ (-1 <= mx)%Z /\ (star_free rl -> mx = zsum item_max rl).
Lemma simple_max it : wfi u it -> simple it -> (item_max it = -1 <-> ~ not_star it)%Z /\ (-1 <= item_max it)%Z.
Proof.
  intros W [O|(k & ->)].
  - assert (H : (0 <= item_max it)%Z).
    { destruct it; try easy; cbn in *; try (unfold zlen; lia).
      - pose proof (rune_len_pos' r W). lia. }
    destruct it; cbn [not_star]; split; try easy; lia.
  - cbn. split; [split; [intros _ X; exact X|reflexivity]|lia].
Qed.
Lemma group_chain_spec nwi : tspec nwi -> forall fuel v rl mn mx rl' mn' mx', tok v -> ~ In "}"%char v -> chain_inv rl mn mx ->
  group_chain fuel nwi v (rl, mn, mx) = Ok (rl', mn', mx') ->
  chain_inv rl' mn' mx' /\ forall w, dens (rev rl') w <-> exists w1 w2, w = w1 ++ w2 /\ dens (rev rl) w1 /\ denotes v w2.
Proof.
  intros T fuel. induction fuel as [|f IH]; intros v rl mn mx rl' mn' mx' Tv NB Inv H; cbn [group_chain] in H.
  { destruct v; [|discriminate]. injection H as <- <- <-. split; auto. intro w. split.
    - intro D. exists w, []. rewrite app_nil_r, denotes_nil. auto.
    - intros (w1 & w2 & -> & D1 & D2). apply denotes_nil in D2 as ->. now rewrite app_nil_r. }
  destruct v as [|c v]; [injection H as <- <- <-; split; auto; intro w; split;
    [intro D; exists w, []; rewrite app_nil_r, denotes_nil; auto|intros (w1 & w2 & -> & D1 & D2); apply denotes_nil in D2 as ->; now rewrite app_nil_r]|].
  destruct (nwi (c :: v)) as [[oi rest]|e| |] eqn:E; try discriminate.
  destruct (T _ _ _ Tv (plain_no_brace _ NB) ltac:(discriminate) E) as ((a & Na & Ea & De') & Tr & Oo & Si).
  pose proof (De' rest) as De. rewrite <- Ea in De. clear De'.
  assert (NB' : ~ In "}"%char rest) by (intro I; apply NB; rewrite Ea; apply in_or_app; now right).
  specialize (Si NB). destruct oi as [it|].
  - destruct Oo as [Wi Wm]. unfold chain_append in H. destruct Inv as (I1 & I2 & I3 & I4 & I5).
    destruct (append_spec rl it I1 Wi) as (A1 & A2 & A3 & A4 & _ & A6). destruct (simple_max it Wi Si) as [X1 X2].
    apply IH in H; auto.
    + destruct H as [Inv' D]. split; auto. intro w. rewrite D. split.
      * intros (w1 & w2 & -> & D1 & D2). apply A2 in D1 as (w3 & w4 & -> & D3 & D4). exists w3, (w4 ++ w2). rewrite app_assoc.
        repeat split; auto. apply De. exists w4, w2. rewrite dens_olist. auto.
      * intros (w1 & w2 & -> & D1 & D2). apply De in D2 as (w3 & w4 & -> & D3 & D4). apply dens_olist in D3.
        exists (w1 ++ w3), w4. rewrite app_assoc. repeat split; auto. apply A2. eauto.
    + repeat split; auto.
      * lia.
      * destruct (item_max it =? -1)%Z eqn:E1; lia.
      * intro SF. apply A6 in SF as (S1 & S2 & S3). specialize (I5 S1). destruct (item_max it =? -1)%Z eqn:E1; [|lia].
        exfalso. apply X1; auto. lia.
  - apply IH in H; auto. destruct H as [Inv' D]. split; auto. intro w. rewrite D. split.
    + intros (w1 & w2 & -> & D1 & D2). exists w1, w2. repeat split; auto. apply De. exists [], w2. now rewrite dens_olist.
    + intros (w1 & w2 & -> & D1 & D2). apply De in D2 as (w3 & w4 & -> & D3 & D4). apply dens_olist in D3 as ->. exists w1, w4. auto.
Qed.

(** one alternative of a list with wildcards *)
Definition val_ok (v : str) (it : item) : Prop :=
  wfi u it /\ (match it with
               | IChain its _ mx => Forall simple its /\ (-1 <= mx)%Z /\ (star_free its -> mx = zsum item_max its)
               | _ => simple it end) /\ forall w, den it w <-> denotes v w.
Lemma zsum_rev f l : zsum f (rev l) = zsum f l.
Proof. induction l as [|x l IH]; [reflexivity|]. cbn [rev]. rewrite zsum_app, IH. cbn. fold (zsum f l). lia. Qed.
Lemma star_free_rev l : star_free (rev l) <-> star_free l.
Proof. unfold star_free. split; intros H k I; apply (H k); [now apply in_rev in I|now apply in_rev]. Qed.
Lemma group_val_spec nwi v it : tspec nwi -> tok v -> ~ In "}"%char v -> group_val nwi v = Ok it -> val_ok v it.
Proof.
  intros T Tv NB H. unfold group_val in H. destruct (group_chain (length v) nwi v ([], 0%Z, 0%Z)) as [[[rl mn] mx]|e| |] eqn:E; try discriminate.
  cbn [bind] in H. apply group_chain_spec in E; auto.
  2:{ repeat split; try constructor; lia. }
  destruct E as [(I1 & I2 & I3 & I4 & I5) D].
  assert (D' : forall w, dens (rev rl) w <-> denotes v w).
  { intro w. rewrite D. cbn [rev dens]. split; [intros (w1 & w2 & -> & -> & X); exact X|intro X; exists [], w; auto]. }
  destruct rl as [|x [|y rl]]; injection H as <-.
  - split; [now apply wfi_chain|]. split; [split; [constructor|auto]|]. intro w. rewrite den_chain. apply D'.
  - inversion I1; inversion I2; subst. split; auto. split.
    + destruct x; auto. match goal with H : simple _ |- _ => destruct H as [[]|(k & X)]; discriminate X end.
    + intro w. rewrite <- D'. cbn [rev app]. symmetry. apply dens_one.
  - split.
    + apply wfi_chain. split; [|exact (Forall_rev I1)]. rewrite I3. symmetry. exact (zsum_rev item_min (x :: y :: rl)).
    + split; [|intro w; rewrite den_chain; apply D']. split; [exact (Forall_rev I2)|]. split; auto. change ((rev rl ++ [y]) ++ [x]) with (rev (x :: y :: rl)). rewrite zsum_rev, star_free_rev. auto.
Qed.
Lemma no_wild_meta v : has_wildcard v = false -> forall c, In c v -> ~ In c metas.
Proof.
  intros H c I M. apply is_wild_iff in M. assert (X : has_wildcard v = true); [|congruence].
  apply existsb_exists. eauto.
Qed.
Lemma denotes_one_any w : denotes (B "?") w <-> length w = 1.
Proof.
  change (B "?") with ("?"%char :: []). rewrite denotes_any. split.
  - intros (x & w' & -> & D). apply denotes_nil in D as ->. reflexivity.
  - destruct w as [|x [|y w]]; try discriminate. intros _. exists x, []. split; auto. constructor.
Qed.
Lemma denotes_one_star w : denotes (B "*") w.
Proof. change (B "*") with ("*"%char :: []). apply denotes_star. exists w, []. rewrite app_nil_r. split; auto. constructor. Qed.
Lemma val_text v : tok v -> has_wildcard v = false -> val_ok v (IStr v).
Proof.
  intros [C _] H. split; [exact C|]. split; [left; exact I|]. intro w. cbn [den]. symmetry. apply denotes_text; auto. now apply no_wild_meta.
Qed.
Lemma group_vals_spec nwi : tspec nwi -> forall vals r, Forall tok vals -> Forall (fun v => ~ In "}"%char v) vals ->
  group_vals nwi vals = Ok r ->
  match r with
  | inl it => it = IStar 0 /\ In (B "*") vals
  | inr l => Forall2 val_ok vals l
  end.
Proof.
  intros T. induction vals as [|v vals IH]; intros r Tv NB H; cbn [group_vals] in H.
  - injection H as <-. constructor.
  - inversion Tv as [|? ? T1 T2]; inversion NB as [|? ? N1 N2]; subst. destruct (has_wildcard v) eqn:W.
    + destruct (str_eqb_spec v (B "*")) as [->|Ns].
      * injection H as <-. split; auto. now left.
      * destruct (if str_eqb v (B "?") then Ok (IAny 1) else group_val nwi v) as [it|e| |] eqn:E; try discriminate. cbn [bind] in H.
        assert (V : val_ok v it).
        { destruct (str_eqb_spec v (B "?")) as [->|Nq].
          - injection E as <-. split; [exact I|]. split; [left; exact I|]. intro w. now rewrite denotes_one_any.
          - now apply (group_val_spec nwi). }
        destruct (group_vals nwi vals) as [r0|e| |] eqn:E2; try discriminate. cbn [bind] in H.
        specialize (IH r0 T2 N2 eq_refl). destruct r0; injection H as <-.
        -- destruct IH. split; auto. now right.
        -- now constructor.
    + destruct (group_vals nwi vals) as [r0|e| |] eqn:E2; try discriminate. cbn [bind] in H.
      specialize (IH r0 T2 N2 eq_refl). destruct r0; injection H as <-.
      * destruct IH. split; auto. now right.
      * constructor; auto. now apply val_text.
Qed.
Lemma group_bounds_spec l : forall mn mx mn' mx', (-1 <= mx)%Z -> Forall (fun i => (-1 <= item_max i)%Z) l ->
  group_bounds l mn mx = (mn', mx') ->
  (mn' <= mn)%Z /\ Forall (fun i => mn' <= item_min i)%Z l /\ (mn' = mn \/ Exists (fun i => item_min i = mn') l) /\
  (-1 <= mx')%Z /\ (mx' = -1 \/ (mx <> -1 /\ mx <= mx' /\ Forall (fun i => item_max i <> -1 /\ item_max i <= mx') l))%Z.
Proof.
  induction l as [|i l IH]; intros mn mx mn' mx' Lx F H; cbn [group_bounds] in H.
  - injection H as <- <-. repeat split; auto; try lia. destruct (Z.eq_dec mx (-1)); [left; auto|right]. repeat split; auto; lia.
  - inversion F as [|? ? F1 F2]; subst. apply IH in H; auto.
    2:{ destruct (negb (mx =? -1)%Z && ((item_max i =? -1)%Z || (mx <? item_max i)%Z)); lia. }
    destruct H as (A & A2 & A3 & A4 & A5). 
    assert (Q : (mn' <= mn /\ mn' <= item_min i /\ (mn' = mn \/ mn' = item_min i \/ Exists (fun i => item_min i = mn') l))%Z).
    { destruct (item_min i <? mn)%Z eqn:E; destruct A3; split; try split; try lia; auto. }
    destruct Q as (Q1 & Q2 & Q3). repeat split; auto.
    + destruct Q3 as [->|[->|Q3]]; auto.
    + destruct A5 as [->|(B1 & B2 & B3)]; auto. right.
      destruct (negb (mx =? -1)%Z && ((item_max i =? -1)%Z || (mx <? item_max i)%Z)) eqn:E.
      * split; [lia|]. split; [lia|]. constructor; auto; lia.
      * split; [lia|]. split; [lia|]. constructor; auto; lia.
Qed.
Lemma simple_or_chain_max v it : val_ok v it -> (-1 <= item_max it)%Z.
Proof.
  intros (W & K & _). destruct it; try (now apply (simple_max _ W)); try (destruct K as [[]|(k & X)]; discriminate X).
  cbn. tauto.
Qed.
Lemma new_group_spec nwi vals oi : tspec nwi -> Forall tok vals -> Forall (fun v => ~ In "}"%char v) vals ->
  new_group nwi vals = Ok oi -> vals <> [] ->
  opt_ok oi /\ forall w, dens (olist oi) w <-> exists v, In v vals /\ denotes v w.
Proof.
  intros T Tv NB H NE. unfold new_group in H. destruct (group_vals nwi vals) as [r|e| |] eqn:E; try discriminate. cbn [bind] in H.
  apply group_vals_spec in E; auto. destruct r as [it|l].
  - destruct E as [-> E]. injection H as <-. split; [split; exact I|]. intro w. rewrite dens_olist. cbn [den]. split.
    + intros _. exists (B "*"). split; auto. apply denotes_one_star.
    + intros _. lia.
  - assert (L : l <> []) by (intros ->; inversion E; congruence). destruct l as [|x l]; [easy|].
    destruct (group_bounds l (item_min x) (item_max x)) as [mn mx] eqn:G. injection H as <-.
    assert (Mx : Forall (fun i => (-1 <= item_max i)%Z) (x :: l)).
    { clear - E. induction E; constructor; auto. now apply (simple_or_chain_max x0). }
    inversion Mx as [|? ? M1 M2]; subst. apply group_bounds_spec in G as (G1 & G2 & G3 & G4 & G5); auto.
    assert (Wf : Forall (wfi u) (x :: l)) by (clear - E; induction E as [|? ? ? ? (W & _)]; constructor; auto).
    assert (D : forall w, (exists i, In i (x :: l) /\ den i w) <-> exists v, In v vals /\ denotes v w).
    { clear - E. intro w. induction E as [|v i vs is (_ & _ & D) E IH]; [split; intros (? & [] & _)|]. split.
      - intros (j & [<-|I] & X); [exists v; split; [now left|now apply D]|]. destruct (proj1 IH) as (v' & I' & X'); eauto. exists v'. split; auto. now right.
      - intros (j & [<-|I] & X); [exists i; split; [now left|now apply D]|]. destruct (proj2 IH) as (v' & I' & X'); eauto. exists v'. split; auto. now right. }
    inversion Wf as [|? ? W1 W2]; subst. split.
    + split.
      * apply wfi_group. split.
        { destruct G3 as [->|G3]; [now apply (item_min_nonneg u)|]. apply Exists_exists in G3 as (i & I & <-). rewrite Forall_forall in W2. apply (item_min_nonneg u), W2, I. }
        split.
        { intro Z0. destruct G3 as [G3|G3]; [apply Exists_cons_hd; lia|]. apply Exists_cons_tl. eapply Exists_impl; [|exact G3]. cbn. intros; lia. }
        { constructor; [split; auto; lia|]. rewrite Forall_forall in *. intros i I. split; auto. }
      * split; [split; auto|].
        { destruct G5 as [->|(B1 & B2 & B3)]; auto. }
        clear - E. induction E as [|v i vs is (_ & K & _) E IH]; constructor; auto.
    + intro w. rewrite dens_olist, den_group. apply D.
Qed.

(** the scan of NewItemList *)
Lemma list_scan_spec vals : forall mn mx st fi mn' mx' st' fi', as_ok fi -> list_scan vals mn mx st fi = (mn', mx', st', fi', false) ->
  (mn' <= mn)%Z /\ (mx <= mx')%Z /\ Forall (fun v => mn' <= zlen v <= mx')%Z vals /\ (mn' = mn \/ Exists (fun v => zlen v = mn') vals) /\
  Forall (fun v => has_wildcard v = false) vals /\ as_ok fi' /\ (forall c, as_contains fi c = true -> as_contains fi' c = true) /\
  (st' = true -> st = true /\ forall v c t, In v vals -> v = c :: t -> as_contains fi' c = true).
Proof.
  induction vals as [|v vals IH]; intros mn mx st fi mn' mx' st' fi' O H; cbn [list_scan] in H.
  - injection H as <- <- <- <-. split; [lia|]. split; [lia|]. split; [constructor|]. split; [now left|]. split; [constructor|]. split; [exact O|]. split; [auto|].
    intro E. split; [exact E|]. intros ? ? ? [].
  - destruct v as [|c t].
    + apply IH in H; auto. destruct H as (A1 & A2 & A3 & A4 & A5 & A6 & A7 & A8). change (zlen []) with 0%Z in *.
      assert (Q : (mn' <= mn /\ mn' <= 0 /\ mx <= mx' /\ 0 <= mx' /\ (mn' = mn \/ mn' = 0 \/ Exists (fun v => zlen v = mn') vals))%Z).
      { destruct (0 <? mn)%Z eqn:E1, (mx <? 0)%Z eqn:E2; destruct A4; repeat split; try lia; auto. }
      destruct Q as (Q1 & Q2 & Q3 & Q4 & Q5).
      split; [exact Q1|]. split; [exact Q3|]. split.
      { constructor; [change (zlen []) with 0%Z; lia|exact A3]. }
      split; [destruct Q5 as [->|[->|Q5]]; auto|]. split; [constructor; auto|]. split; [exact A6|]. split; [exact A7|].
      intro E. split; [now apply A8|]. intros v0 c0 t0 [<-|I] E0; [discriminate|]. destruct (A8 E) as [_ X]. exact (X _ _ _ I E0).
    + destruct (as_add fi c) as [fi1 ok] eqn:EA. assert (O1 : as_ok fi1) by (change fi1 with (fst (fi1, ok)); rewrite <- EA; now apply as_ok_add).
      destruct (has_wildcard (c :: t)) eqn:W; [discriminate|]. apply IH in H; auto. destruct H as (A1 & A2 & A3 & A4 & A5 & A6 & A7 & A8).
      assert (Q : (mn' <= mn /\ mn' <= zlen (c :: t) /\ mx <= mx' /\ zlen (c :: t) <= mx' /\ (mn' = mn \/ mn' = zlen (c :: t) \/ Exists (fun v => zlen v = mn') vals))%Z).
      { destruct (zlen (c :: t) <? mn)%Z eqn:E1, (mx <? zlen (c :: t))%Z eqn:E2; destruct A4; repeat split; try lia; auto. }
      destruct Q as (Q1 & Q2 & Q3 & Q4 & Q5). 
      assert (CA : forall d, as_contains fi1 d = as_contains fi d || (ok && Ascii.eqb c d)).
      { intro d. assert (E1 : fi1 = fst (as_add fi c)) by now rewrite EA. rewrite E1, contains_add by auto.
        assert (E2 : ok = (code c <? 128)%N). { unfold as_add, RuneSelf in EA. destruct (128 <=? code c)%N eqn:E; injection EA as _ <-; lia. }
        rewrite E2, orb_comm, andb_comm, (Ascii.eqb_sym c d). reflexivity. }
      split; [exact Q1|]. split; [exact Q3|]. split; [constructor; auto|].
      split; [destruct Q5 as [->|[->|Q5]]; auto|]. split; [constructor; auto|]. split; [exact A6|].
      split; [intros d X; apply A7; rewrite CA, X; reflexivity|].
      intro E. destruct (A8 E) as [X X2]. destruct ok; [|discriminate]. split; [exact X|].
      intros v0 c0 t0 [<-|I] E0; [|exact (X2 _ _ _ I E0)]. injection E0 as <- <-. apply A7. rewrite CA. cbn [andb].
      rewrite Ascii.eqb_refl. apply orb_true_r.
Qed.
End Tok.
