(** matchItems decides the language of safe item sequences. *)
From Verif Require Import Model.Glob Spec.Symbols Spec.Lang Spec.Safe.
From Verif Require Import Proof.Utf8P Proof.SymbolsP Proof.SkipP Proof.ClassSearchP Proof.RangesP Proof.SortP Proof.LangP Proof.ItemP.
From Coq Require Import Lia ZifyBool ZifyN ZifyNat.

(** weights *)
Fixpoint wt (it : item) : nat :=
  match it with
  | IGroup vals _ _ => S (S (list_sum (map wt vals)))
  | IChain its _ _ => S (list_sum (map wt its))
  | _ => 1
  end.
Definition wts (l : list item) : nat := list_sum (map wt l).
Definition wnext (next : list (list item)) : nat := list_sum (map (fun l => S (wts l)) next).
Lemma wts_cons i l : wts (i :: l) = wt i + wts l.
Proof. reflexivity. Qed.
Lemma wnext_cons l r : wnext (l :: r) = S (wts l) + wnext r.
Proof. reflexivity. Qed.
Lemma wt_pos it : 1 <= wt it.
Proof. destruct it; cbn; lia. Qed.
Lemma wts_val v : wts (val_items v) <= wt v.
Proof. destruct v; cbn [val_items]; rewrite ?wts_cons; change (wts []) with 0; try lia. cbn [wt]. unfold wts. lia. Qed.
Lemma wt_weight it : wt it <= 2 * item_weight it.
Proof.
  induction it as [it IG IC] using item_ind2. destruct it; cbn [wt item_weight]; try lia.
  - specialize (IG _ _ _ eq_refl). assert (list_sum (map wt vals) <= 2 * list_sum (map item_weight vals)); [|lia].
    clear IC. induction IG as [|v r H F IH]; [cbn; lia|]. 
    change (list_sum (map wt (v :: r))) with (wt v + list_sum (map wt r)).
    change (list_sum (map item_weight (v :: r))) with (item_weight v + list_sum (map item_weight r)). lia.
  - specialize (IC _ _ _ eq_refl). assert (list_sum (map wt items) <= 2 * list_sum (map item_weight items)); [|lia].
    clear IG. induction IC as [|v r H F IH]; [cbn; lia|]. 
    change (list_sum (map wt (v :: r))) with (wt v + list_sum (map wt r)).
    change (list_sum (map item_weight (v :: r))) with (item_weight v + list_sum (map item_weight r)). lia.
Qed.
Lemma wts_weight l : wts l <= 2 * items_weight l.
Proof.
  induction l as [|v r IH]; [cbn; lia|]. rewrite wts_cons. unfold items_weight in *.
  change (list_sum (map item_weight (v :: r))) with (item_weight v + list_sum (map item_weight r)). pose proof (wt_weight v). lia.
Qed.

Lemma next_empty_iff next : next_empty next = true <-> concat next = [].
Proof.
  unfold next_empty. induction next as [|l r IH]; [easy|]. cbn. rewrite andb_true_iff, IH. destruct l; cbn; intuition discriminate.
Qed.
Lemma next_next_spec next : next_empty next = false ->
  let '(its, nx) := next_next next in its ++ concat nx = concat next /\ wts its + wnext nx < wnext next /\ its ++ concat nx <> [].
Proof.
  intro H. assert (N : concat next <> []) by (intro E; apply next_empty_iff in E; congruence).
  destruct next as [|l rest]; [easy|]. cbn [next_next]. destruct l as [|i l]; cbn [null negb].
  - destruct rest as [|l2 rest2]; [easy|]. cbn [concat app] in *. rewrite !wnext_cons. repeat split; auto; lia.
  - cbn [concat]. rewrite wnext_cons. repeat split; auto; lia.
Qed.

(** some suffix of l is matched by F *)
Definition sfx (l : list str) (F : list item) : Prop := exists pre post, l = pre ++ post /\ dens F post.
Lemma sfx_star k F l : dens (IStar k :: F) l <-> k <= length l /\ sfx (skipn k l) F.
Proof.
  cbn [dens den]. split.
  - intros (w1 & w2 & -> & L & D). rewrite app_length. split; [lia|]. exists (skipn k w1), w2. split; auto.
    rewrite skipn_app. replace (k - length w1) with 0 by lia. reflexivity.
  - intros (L & pre & post & E & D). exists (firstn k l ++ pre), post. rewrite <- app_assoc, <- E, firstn_skipn.
    repeat split; auto. rewrite app_length, firstn_length. lia.
Qed.
Lemma sfx_app z l F : sfx l F -> sfx (z ++ l) F.
Proof. intros (p & q & -> & D). exists (z ++ p), q. now rewrite app_assoc. Qed.
Lemma dens_star_absorb k F z l : dens (IStar k :: F) l -> dens (IStar k :: F) (z ++ l).
Proof.
  cbn [dens den]. intros (w1 & w2 & -> & L & D). exists (z ++ w1), w2. rewrite app_assoc, app_length. repeat split; auto. lia.
Qed.
Lemma sfx_star_dens k F l : sfx l (IStar k :: F) -> dens (IStar k :: F) l.
Proof. intros (p & q & -> & D). now apply dens_star_absorb. Qed.

Lemma null_symbols s : null s = true <-> symbols s = [].
Proof. rewrite symbols_eq_nil. destruct s; cbn; intuition discriminate. Qed.

Lemma app_suffix {A} (a b c d : list A) : a ++ b = c ++ d -> length a <= length c -> exists z, c = a ++ z /\ b = z ++ d.
Proof.
  revert c. induction a as [|x a IH]; intros c E L; [now exists c|]. destruct c as [|y c]; [cbn in L; lia|].
  cbn in E. injection E as -> E. destruct (IH c E) as (z & -> & ->); [cbn in L; lia|]. now exists z.
Qed.

Lemma skipn_plus {A} a b (l : list A) : skipn a (skipn b l) = skipn (b + a) l.
Proof. revert l. induction b as [|b IH]; intros [|x l]; cbn; auto. now rewrite skipn_nil. Qed.

Section Match.
Variable u : bool.
Definition okstr (s : str) : Prop := u = true -> clean s.
Lemma okstr_suffix s t pre : okstr s -> symbols s = pre ++ symbols t -> okstr t.
Proof.
  intros H E U. specialize (H U). apply clean_symbols in H. apply clean_symbols. rewrite E in H. now apply Forall_app in H.
Qed.

Definition good (r : res (bool * bool)) (P Q : Prop) : Prop :=
  exists m a, r = Ok (m, a) /\ (m = true <-> P) /\ (a = true -> m = false -> ~ Q).

Definition fuelM (s : str) (w : nat) := 4 * w + length s + 1.
Definition PM (f : nat) := forall s items next, let F := items ++ concat next in
  Forall (wfi u) F -> okstr s -> safe F -> fuelM s (wts items + wnext next) <= f ->
  good (matchItems f s items next) (dens F (symbols s)) (sfx (symbols s) F).
Definition PSI (f : nat) := forall s items next, let F := items ++ concat next in
  Forall (wfi u) F -> okstr s -> safe_star F -> fuelM s (wts items + wnext next) + 2 <= f ->
  good (matchStarItems f s items next) (sfx (symbols s) F) False.
Definition PSL (f : nat) := forall s items next, items <> [] -> let F := items ++ concat next in
  Forall (wfi u) F -> okstr s -> safe_star F -> fuelM s (wts items + wnext next) + 1 <= f ->
  good (starLoop f s items next) (sfx (symbols s) F) False.
Definition PO (f : nat) := forall s rest next, let F := rest ++ concat next in
  Forall (wfi u) F -> okstr s -> (F = [] \/ safe_star F) -> safe F -> fuelM s (wts rest + wnext next) + 3 <= f ->
  exists m r, optLoop f s rest next = Ok (m, r) /\ (m = true <-> sfx (symbols s) F) /\ (r = true -> m = true).
Definition PL (f : nat) := forall s vals rest next, let F := rest ++ concat next in
  Forall (wfi u) F -> okstr s -> safe F -> Forall clean vals -> Forall (fun v => v <> []) vals ->
  (length vals <= 1 \/ F = [] \/ exists k R', F = IStar k :: R') -> fuelM s (wts rest + wnext next) + 1 <= f ->
  exists b, listLoop f s vals rest next = Ok b /\
    (b = true <-> exists v, In v vals /\ exists pre y, symbols s = pre ++ symbols v ++ y /\ dens F y).

Lemma safe_star_safe F : safe_star F -> F <> [].
Proof. intro H. destruct H; discriminate. Qed.

(** continuation *)
Lemma cont_spec f s rest next : PM f -> Forall (wfi u) (rest ++ concat next) -> okstr s -> safe (rest ++ concat next) ->
  fuelM s (wts rest + wnext next) <= f ->
  exists b, (if null rest then
        if next_empty next then Ok (null s)
        else let '(its, nx) := next_next next in
             bind (matchItems f s its nx) (fun '(m, _) => Ok m)
      else bind (matchItems f s rest next) (fun '(m, _) => Ok m)) = Ok b /\ (b = true <-> dens (rest ++ concat next) (symbols s)).
Proof.
  intros H W K S L. destruct rest as [|i rest]; cbn [null].
  - destruct (next_empty next) eqn:E.
    + exists (null s). split; auto. apply next_empty_iff in E. rewrite E. cbn [app dens]. apply null_symbols.
    + pose proof (next_next_spec next E) as N. destruct (next_next next) as [its nx]. destruct N as (N & Lw & _).
      cbn [app] in *. rewrite <- N in *. destruct (H s its nx W K S) as (m & a & -> & M & _).
      { unfold fuelM in *. cbn in L. lia. }
      exists m. split; auto.
  - destruct (H s (i :: rest) next W K S L) as (m & a & -> & M & _). exists m. split; auto.
Qed.

Lemma decode_head s : match snd (decode_rune s) with
  | O => s = []
  | n => exists h t, s = h ++ t /\ skipn n s = t /\ symbols s = h :: symbols t /\ length t < length s end.
Proof.
  destruct (list_eq_dec ascii_dec s []) as [->|NE]; [reflexivity|].
  destruct (head_symbol s NE) as (h & t & Es & Ea & Eh & Et & Ed & Nh & Lh & _).
  pose proof (decode_size_pos s NE). destruct (snd (decode_rune s)) as [|n]; [lia|].
  exists h, t. repeat split; auto. rewrite Ea, app_length. lia.
Qed.

Lemma wfi_val v : wfi u v -> Forall (wfi u) (val_items v).
Proof. destruct v; intro W; cbn [val_items]; try (constructor; auto). apply wfi_chain in W. tauto. Qed.

Lemma short_not_dens it R s : wfi u it -> (zlen s < item_min it)%Z -> ~ sfx (symbols s) (it :: R).
Proof.
  intros W L (p & q & E & D). destruct D as (w1 & w2 & -> & D1 & _).
  assert (Ww : word w1). { assert (X := word_symbols s). rewrite E in X. apply word_app in X as [_ X]. now apply word_app in X. }
  pose proof (den_word_min u it W w1 Ww D1). rewrite <- (bytes_symbols s), E, !bytes_app in L.
  pose proof (bytes_nonneg p). pose proof (bytes_nonneg w2). lia.
Qed.
Lemma dens_sfx l F : dens F l -> sfx l F.
Proof. intro D. now exists [], l. Qed.

Lemma match_val_spec s v : clean v -> match match_val s v with
  | Some o => o = length v /\ symbols s = symbols v ++ symbols (skipn o s)
  | None => forall y, symbols s <> symbols v ++ y end.
Proof.
  intro C. unfold match_val. destruct (has_prefix s v) eqn:E.
  - split; auto. apply has_prefix_iff in E as (r & ->). rewrite symbols_clean_app by auto.
    now rewrite skipn_app, skipn_all, Nat.sub_diag.
  - intros y E'. assert (has_prefix s v = true) by (apply has_prefix_symbols; eauto). congruence.
Qed.

Ltac fl := unfold fuelM in *; rewrite ?wts_cons, ?wnext_cons in *; cbn [wt] in *; lia.

Lemma list_go s vals (cont : str -> res bool) R : okstr s -> Forall clean vals ->
  (forall t, okstr t -> length t <= length s -> exists b, cont t = Ok b /\ (b = true <-> dens R (symbols t))) ->
  exists m, (fix go (vs : list str) : res (bool * bool) :=
                   match vs with
                   | [] => Ok (false, false)
                   | v :: vs' =>
                       match match_val s v with
                       | None => go vs'
                       | Some o => bind (cont (skipn o s)) (fun m => if m then Ok (true, false) else go vs')
                       end
                   end) vals = Ok (m, false) /\
    (m = true <-> exists v y, In v vals /\ symbols s = symbols v ++ y /\ dens R y).
Proof.
  intros K Cv C. induction Cv as [|v vs Cv Cvs IH].
  - exists false. repeat split; try discriminate. intros (v & y & [] & _).
  - pose proof (match_val_spec s v Cv) as Mv. destruct IH as (m & IH & M). rewrite IH. clear IH.
    destruct (match_val s v) as [o|].
    + destruct Mv as (-> & E). destruct (C (skipn (length v) s)) as (b & -> & Bb).
      { eapply okstr_suffix; eauto. } { rewrite skipn_length. lia. }
      cbn [bind]. destruct b.
      * exists true. repeat split; auto. intros _. exists v, (symbols (skipn (length v) s)). repeat split; auto; [now left|now apply Bb].
      * exists m. split; auto. rewrite M. split.
        -- intros (v' & y & I & X). exists v', y. split; auto. now right.
        -- intros (v' & y & [<-|I] & Ey & D); [|eauto]. rewrite E in Ey. apply app_inv_head in Ey. subst y. apply Bb in D. discriminate.
    + exists m. split; auto. rewrite M. split.
      * intros (v' & y & I & X). exists v', y. split; auto. now right.
      * intros (v' & y & [<-|I] & Ey & D); [|eauto]. now apply Mv in Ey.
Qed.

(** the loops over group values *)
Lemma group_go vals (call : item -> res (bool * bool)) (P : item -> Prop) :
  (forall v, In v vals -> exists m a, call v = Ok (m, a) /\ (m = true <-> P v)) ->
  exists m, (fix go (vs : list item) : res (bool * bool) :=
                   match vs with
                   | [] => Ok (false, false)
                   | v :: vs' => bind (call v) (fun '(m, _) => if m then Ok (true, false) else go vs')
                   end) vals = Ok (m, false) /\ (m = true <-> exists v, In v vals /\ P v).
Proof.
  induction vals as [|v vs IH]; intro H.
  - exists false. repeat split; try discriminate. intros (v & [] & _).
  - destruct (H v (or_introl eq_refl)) as (m & a & -> & M). cbn [bind]. destruct m.
    + exists true. repeat split; auto. intros _. exists v. split; [now left|now apply M].
    + destruct IH as (m & -> & M2); [intros x I; apply H; now right|]. exists m. split; auto. rewrite M2. split.
      * intros (x & I & X). exists x. split; auto. now right.
      * intros (x & [<-|I] & X); [apply M in X; discriminate|eauto].
Qed.

Lemma step_M f : PM f -> PSI f -> PM (S f).
Proof.
  intros HM HS s items next F W K S L. destruct items as [|it rest]; cbn [matchItems].
  - destruct (next_empty next) eqn:E.
    + exists (null s), false. apply next_empty_iff in E. subst F. rewrite E. cbn [app dens]. rewrite null_symbols. repeat split; auto; discriminate.
    + pose proof (next_next_spec next E) as N. destruct (next_next next) as [its nx]. destruct N as (N & Lw & _).
      subst F. cbn [app] in *. rewrite <- N in *. destruct (HM s its nx W K S) as (m & a & -> & M & _); [fl|].
      exists m, false. cbn [bind]. repeat split; auto; try apply M; discriminate.
  - subst F. cbn [app] in *. set (R := rest ++ concat next) in *. inversion W as [|? ? Wi WR]; subst.
    destruct (zlen s <? item_min it)%Z eqn:Z0.
    + exists false, false. repeat split; try discriminate. intro D. exfalso. eapply short_not_dens; [exact Wi| |apply dens_sfx, D]. lia.
    + clear Z0. assert (One : one_item it -> safe R -> good
        match item_match it s with
        | (Some off, FindDone) => matchItems f (skipn off s) rest next 
        | (Some off, _) => Panic
        | (None, _) => Ok (false, false) end (dens (it :: R) (symbols s)) (sfx (symbols s) (it :: R))).
      { intros O SR. pose proof (item_match_one u it s Wi O) as M. destruct (item_match it s) as [[off|] fl0].
        - destruct M as (-> & x & y & E & D & ->). destruct (len_concat_symbols _ _ _ E) as (_ & Ey & Le & _).
          destruct (HM (skipn (length (concat x)) s) rest next WR) as (m & a & -> & M & A); auto.
          { eapply okstr_suffix; [exact K|]. rewrite Ey. exact E. }
          { pose proof (wt_pos it). unfold fuelM in *. rewrite wts_cons in L. rewrite skipn_length. lia. }
          fold R in M, A. rewrite Ey in M, A. exists m, a. split; auto. split.
          + rewrite M, E. cbn [dens]. split; [intro Dy; exists x, y; auto|].
            intros (w1 & w2 & E2 & D1 & D2). assert (length x = length w1) by (rewrite (den_cnt _ _ O D), (den_cnt _ _ O D1); auto).
            apply app_len_inj in E2 as [-> ->]; auto.
          + intros -> -> (p & q & E2 & D2). apply A; auto. destruct D2 as (w1 & w2 & -> & D1 & D2).
            rewrite E2 in E. rewrite app_assoc in E. symmetry in E. apply app_suffix in E as (z & _ & ->).
            * now exists z, w2.
            * rewrite app_length, (den_cnt _ _ O D), (den_cnt _ _ O D1). lia.
        - destruct M as (-> & M). exists false, false. repeat split; try discriminate.
          intros (w1 & w2 & E2 & D1 & D2). exfalso. eapply M; eauto. }
      destruct it as [t|b|r|n|n|rs|l|vals mn mx|its mn mx].
      * assert (SR : safe R) by (inversion S; subst; auto; easy). specialize (One I SR). cbn [item_match] in *.
        destruct (has_prefix s t); exact One.
      * assert (SR : safe R) by (inversion S; subst; auto; easy). specialize (One I SR). cbn [item_match] in *.
        destruct s; [|destruct (Ascii.eqb b _)]; exact One.
      * assert (SR : safe R) by (inversion S; subst; auto; easy). 
        specialize (One I SR). cbn [item_match] in *. destruct (decode_rune s) as [c k].
        destruct (negb (c =? RuneError)%N); [destruct (c =? r)%N|]; exact One.
      * assert (SR : safe R) by (inversion S; subst; auto; easy). specialize (One I SR). cbn [item_match] in *.
        destruct (skip_runes s n); exact One.
      * (* star *)
        assert (SR : R = [] \/ safe_star R) by (inversion S; subst; auto; easy).
        cbn [item_match]. rewrite skip_runes_symbols. destruct (n <=? length (symbols s)) eqn:Ln.
        2:{ exists false, false. repeat split; try discriminate. intro D. apply sfx_star in D as [D _]. unfold str in *. lia. }
        assert (Es : symbols s = firstn n (symbols s) ++ skipn n (symbols s)) by (symmetry; apply firstn_skipn).
        destruct (len_concat_symbols _ _ _ Es) as (_ & Ey & Le & _). set (s1 := skipn (length (concat (firstn n (symbols s)))) s) in *.
        assert (K1 : okstr s1). { eapply okstr_suffix; [exact K|]. rewrite Ey. exact Es. }
        assert (L1 : length s1 <= length s) by (unfold s1; rewrite skipn_length; lia).
        assert (D : dens (IStar n :: R) (symbols s) <-> sfx (symbols s1) R).
        { rewrite sfx_star, Ey. split; [tauto|]. intro X. split; auto. unfold str in *. lia. }
        assert (Conv : forall r, good r (sfx (symbols s1) R) False -> good r (dens (IStar n :: R) (symbols s)) (sfx (symbols s) (IStar n :: R))).
        { intros r (m & a & -> & M & _). exists m, a. split; auto. rewrite D. split; auto. intros _ -> X.
          apply sfx_star_dens, D, M in X. discriminate. }
        assert (T : R = [] -> sfx (symbols s1) R) by (intros ->; exists (symbols s1), []; rewrite app_nil_r; split; reflexivity).
        destruct rest as [|i rest]; cbn [null].
        -- destruct (next_empty next) eqn:E.
           ++ apply Conv. exists true, false. apply next_empty_iff in E. repeat split; auto.
           ++ pose proof (next_next_spec next E) as N. destruct (next_next next) as [its nx]. destruct N as (N & Lw & NE).
              destruct SR as [SR|SR]; [subst R; cbn in SR; congruence|].
              apply Conv. subst R. cbn [app] in *. rewrite <- N in *. apply HS; auto. fl.
        -- destruct SR as [SR|SR]; [subst R; discriminate|]. apply Conv. apply HS; auto. fl.
      * assert (SR : safe R) by (inversion S; subst; auto; easy). 
        specialize (One I SR). cbn [item_match] in *. destruct (snd (rr_starts_with rs s)); exact One.
      * (* list *)
        assert (SR : safe R) by (inversion S; subst; auto; easy).
        cbn [item_match skipn].
        assert (C : forall t, okstr t -> length t <= length s -> exists b, (if null rest then
          if next_empty next then Ok (null t) else let '(its, nx) := next_next next in bind (matchItems f t its nx) (fun '(m, _) => Ok m)
          else bind (matchItems f t rest next) (fun '(m, _) => Ok m)) = Ok b /\ (b = true <-> dens R (symbols t))).
        { intros t Kt Lt. apply cont_spec; auto. fl. }
        destruct Wi as (Cv & _ & Wm & _).
        assert (exists b0, (if sl_optional l then
             if null rest then
               if next_empty next then Ok (null s) else let '(its, nx) := next_next next in bind (matchItems f s its nx) (fun '(m, _) => Ok m)
             else bind (matchItems f s rest next) (fun '(m, _) => Ok m) else Ok false) = Ok b0 /\
             (b0 = true <-> sl_min l = 0%Z /\ dens R (symbols s))) as (b0 & -> & B0).
        { unfold sl_optional. destruct (sl_min l =? 0)%Z eqn:Z1.
          - destruct (C s K (le_n _)) as (b0 & -> & B0). exists b0. split; auto. rewrite B0. split; [split; auto; lia|tauto].
          - exists false. split; auto. split; [discriminate|]. lia. }
        destruct (list_go s (sl_vals l) (fun t => if null rest then
          if next_empty next then Ok (null t) else let '(its, nx) := next_next next in bind (matchItems f t its nx) (fun '(m, _) => Ok m)
          else bind (matchItems f t rest next) (fun '(m, _) => Ok m)) R K Cv C) as (m & E & M).
        cbv beta in E. cbn [bind]. rewrite E. clear E C.
        assert (D : dens (IList l :: R) (symbols s) <-> b0 = true \/ m = true).
        { rewrite B0, M. cbn [dens den]. split.
          - intros (w1 & w2 & E & [[Z1 ->]|(v & I & ->)] & D); [left; rewrite E; auto|right; eauto].
          - intros [[Z1 D]|(v & y & I & E & D)]; [exists [], (symbols s); auto|exists (symbols v), y; repeat split; eauto]. }
        destruct b0; [exists true, false|exists m, false]; rewrite D; repeat split; auto; try discriminate; intuition discriminate.
      * (* group *)
        assert (SG : (forall v, In v vals -> safe (val_items v ++ R)) /\ (mn = 0%Z -> safe R)) by (inversion S; subst; [easy|auto]).
        destruct SG as [SV SR]. cbn [item_match skipn].
        pose proof Wi as Wg. apply wfi_group in Wg as (_ & _ & Wv).
        assert (exists b0, (if group_optional mn then
             if null rest then
               if next_empty next then Ok (null s) else let '(its, nx) := next_next next in bind (matchItems f s its nx) (fun '(m, _) => Ok m)
             else bind (matchItems f s rest next) (fun '(m, _) => Ok m) else Ok false) = Ok b0 /\
             (b0 = true -> dens (IGroup vals mn mx :: R) (symbols s))) as (b0 & -> & B0).
        { unfold group_optional. destruct (mn =? 0)%Z eqn:Z1; [|exists false; split; [auto|discriminate]].
          destruct (cont_spec f s rest next HM WR K) as (b0 & -> & B0); [apply SR; lia|fl|].
          exists b0. split; auto. intro E. apply B0 in E. exists [], (symbols s). split; auto. split; auto.
          apply (den_min_0 u); auto. cbn. lia. }
        cbn [bind]. destruct b0.
        -- exists true, false. repeat split; auto; discriminate.
        -- destruct (group_go vals (fun v => matchItems f s (val_items v) (rest :: next)) (fun v => dens (val_items v ++ R) (symbols s))) as (m & E & M).
           { intros v I. destruct (HM s (val_items v) (rest :: next)) as (m & a & E & M & _); auto.
             - cbn [concat]. apply Forall_app. split; auto. apply wfi_val. rewrite Forall_forall in Wv. now apply Wv.
             - pose proof (wts_val v). pose proof (in_list_sum wt vals v I). fl.
             - exists m, a. split; auto. }
           cbv beta in E. rewrite E. exists m, false. rewrite M, dens_group_cons. repeat split; auto. discriminate.
      * exfalso. inversion S; easy.
Qed.

Lemma shift_spec f s0 s items next P : PSL f -> items <> [] -> Forall (wfi u) (items ++ concat next) -> okstr s0 -> safe_star (items ++ concat next) ->
  (exists pre, symbols s0 = pre ++ symbols s) ->
  fuelM s (wts items + wnext next) + 1 <= S f ->
  (forall h t, symbols s = h :: symbols t -> (P <-> sfx (symbols t) (items ++ concat next))) -> (s = [] -> ~ P) ->
  good (let '(_, n) := decode_rune s in
      if Nat.eqb n 0 then Ok (false, false) else starLoop f (skipn n s) items next) P False.
Proof.
  intros H NE W K S (pre & Ep) L HP H0. pose proof (decode_head s) as D. destruct (decode_rune s) as [c n]. cbn [snd] in D.
  destruct n as [|n]; cbn [Nat.eqb].
  - exists false, false. repeat split; try discriminate. intro X. now elim (H0 D).
  - destruct D as (h & t & Es & Et & Ey & Lt). rewrite Et. destruct (H t items next) as (m & a & -> & M & A); auto.
    { eapply okstr_suffix; [exact K|]. rewrite Ep, Ey. change (h :: symbols t) with ([h] ++ symbols t). rewrite app_assoc. reflexivity. }
    { unfold fuelM in *. lia. }
    exists m, a. split; auto. rewrite (HP h t Ey). split; auto.
Qed.

Lemma step_SI f : PSI f -> PSL f -> PSI (S f).
Proof.
  intros HI HL s items next F W K S L. destruct items as [|it rest]; cbn [matchStarItems].
  - destruct (next_empty next) eqn:E.
    + exfalso. apply next_empty_iff in E. apply safe_star_safe in S. subst F. rewrite E in S. easy.
    + pose proof (next_next_spec next E) as N. destruct (next_next next) as [its nx]. destruct N as (N & Lw & _).
      subst F. cbn [app] in *. rewrite <- N in *. apply HI; auto. fl.
  - apply HL; auto; [discriminate|fl].
Qed.

Lemma step_SL f : PM f -> PSI f -> PSL f -> PO f -> PL f -> PSL (S f).
Proof.
  intros HM HI HS HO HL s items next NE F W K S L. destruct items as [|it rest]; [easy|]. cbn [starLoop].
  subst F. cbn [app] in *. set (R := rest ++ concat next) in *. inversion W as [|? ? Wi WR]; subst.
  destruct (zlen s <? item_min it)%Z eqn:Z0.
  - exists false, true. split; auto. split; [split; [discriminate|intro D; exfalso; revert D; apply short_not_dens; auto; lia]|auto].
  - assert (Lit : literal_item it -> safe R -> good
      match item_find it s with
      | (None, _, _) => Ok (false, true)
      | (Some off, len, FindDone) =>
         match after_found len (skipn off s) with
         | None => Panic
         | Some sub => bind (matchItems f sub rest next) (fun '(m, a) =>
            if m || a then Ok (m, a) else
              let '(_, n) := decode_rune (skipn off s) in
              if Nat.eqb n 0 then Ok (false, false) else starLoop f (skipn n (skipn off s)) (it :: rest) next)
         end
      | (Some _, _, _) => Panic
      end (sfx (symbols s) (it :: R)) False).
    { intros O SR. assert (O1 : one_item it) by (destruct it; easy).
      pose proof (item_find_lit u it s Wi O K) as M. destruct (item_find it s) as [[[off|] [n|]] fl0]; try easy.
      2,3: exists false, true; split; auto; split; auto; split; [discriminate|]; intros (p & q & E & (w1 & w2 & -> & D1 & D2)); exfalso; eapply M; eauto.
      destruct M as (-> & pre & x & y & E & D & -> & -> & Min).
      destruct (len_concat_symbols _ _ _ E) as (_ & Exy & Le & _). set (s1 := skipn (length (concat pre)) s) in *.
      destruct (len_concat_symbols _ _ _ Exy) as (_ & Ey & Le1 & _). rewrite (after_found_ok _ _ Le1). set (s2 := skipn (length (concat x)) s1) in *.
      assert (K1 : okstr s1) by (eapply okstr_suffix; [exact K|]; rewrite Exy; exact E).
      assert (K2 : okstr s2) by (eapply okstr_suffix; [exact K1|]; rewrite Ey; exact Exy).
      assert (L1 : length s1 <= length s) by (unfold s1; rewrite skipn_length; lia).
      assert (L2 : length s2 <= length s1) by (unfold s2; rewrite skipn_length; lia).
      destruct (HM s2 rest next) as (m & a & -> & M & A); auto. { pose proof (wt_pos it). fl. }
      fold R in M, A. rewrite Ey in M, A. cbn [bind].
      (* any match starts at or after the first occurrence *)
      assert (Any : forall p q, symbols s = p ++ q -> dens (it :: R) q ->
         exists z, p = pre ++ z /\ x ++ y = z ++ q /\ exists z' w2, y = z' ++ w2 /\ dens R w2 /\ (z = [] -> z' = [])).
      { intros p q E2 (w1 & w2 & -> & D1 & D2). pose proof (Min p w1 w2 E2 D1) as LL.
        rewrite E in E2. destruct (app_suffix _ _ _ _ E2 LL) as (z & -> & Ez). exists z. split; auto. split; auto.
        pose proof (den_cnt _ _ O1 D) as C1. pose proof (den_cnt _ _ O1 D1) as C2.
        rewrite app_assoc in Ez. destruct (app_suffix _ _ _ _ Ez) as (z' & E3 & E4); [rewrite app_length; lia|].
        exists z', w2. repeat split; auto. intros ->. cbn in E3. assert (length w1 = length (x ++ z')) by now rewrite E3.
        rewrite app_length in H. destruct z'; auto. cbn in H. lia. }
      destruct m.
      - cbn [orb]. exists true, a. repeat split; auto. intros _. exists pre, (x ++ y). split; auto. exists x, y. repeat split; auto. now apply M.
      - destruct a; cbn [orb].
        + exists false, true. repeat split; auto; [discriminate|]. intros (p & q & E2 & D2). exfalso.
          destruct (Any p q E2 D2) as (z & _ & _ & z' & w2 & -> & D3 & _). apply A; auto. now exists z', w2.
        + apply (shift_spec f s s1 (it :: rest) next); auto.
          * exists pre. rewrite Exy. exact E.
          * cbn [app]. fl.
          * intros h t Eh. cbn [app]. fold R. split.
            -- intros (p & q & E2 & D2). destruct (Any p q E2 D2) as (z & -> & Ez & z' & w2 & Ey' & D3 & Zn).
               rewrite Exy in Eh. rewrite Ez in Eh. destruct z as [|h' z].
               ++ exfalso. rewrite (Zn eq_refl) in Ey'. cbn in Ey'. subst w2. assert (false = true) by now apply M. discriminate.
               ++ cbn in Eh. injection Eh as <- Eh. exists z, q. auto.
            -- intros (p & q & E2 & D2). exists (pre ++ h :: p), q. split; auto. rewrite E. rewrite Exy in Eh. rewrite Eh, E2, <- app_assoc. reflexivity.
          * intros E1 (p & q & E2 & D2). destruct (Any p q E2 D2) as (z & -> & Ez & z' & w2 & Ey' & D3 & Zn).
            rewrite E1, symbols_nil in Exy. symmetry in Exy. apply app_eq_nil in Exy as [-> ->]. cbn in Ez. symmetry in Ez.
            apply app_eq_nil in Ez as [-> ->]. rewrite (Zn eq_refl) in Ey'. cbn in Ey'. subst w2.
            assert (false = true) by now apply M. discriminate. }
    destruct it as [t|b|r|n|n|rs|l|vals mn mx|its mn mx].
    + assert (SR : safe R) by (inversion S; subst; auto; easy). specialize (Lit I SR). cbn [item_find] in *.
      destruct (index_of s t); exact Lit.
    + assert (SR : safe R) by (inversion S; subst; auto; easy). specialize (Lit I SR). cbn [item_find] in *.
      destruct (index_byte s b); exact Lit.
    + assert (SR : safe R) by (inversion S; subst; auto; easy). specialize (Lit I SR). cbn [item_find] in *.
      destruct (index_rune s r); exact Lit.
    + exfalso. inversion S; easy.
    + (* star after star *)
      assert (ER : n <= 1 /\ R = []) by (inversion S; subst; [easy|auto]). destruct ER as [Ln ER].
      assert (Er : rest = [] /\ concat next = []) by (subst R; now apply app_eq_nil in ER). destruct Er as [-> En].
      cbn [item_find null]. apply next_empty_iff in En. rewrite En.
      exists true, false. repeat split; auto. intros _. rewrite ER. exists [], (symbols s). split; auto.
      apply sfx_star. cbn [item_min] in Z0. split.
      * destruct n as [|n]; [lia|]. assert (symbols s <> []) by (intro E0; apply symbols_eq_nil in E0; subst s; cbn in Z0; lia).
        destruct (symbols s); [easy|]. cbn. lia.
      * exists (skipn n (symbols s)), []. rewrite app_nil_r. split; reflexivity.
    + assert (SR : safe R) by (inversion S; subst; auto; easy). specialize (Lit I SR). cbn [item_find] in *.
      destruct (rr_index rs s) as [[[? ?] ?]|]; exact Lit.
    + (* list after star *)
      assert (SL : safe R /\ (sl_min l = 0%Z -> R = [] \/ safe_star R) /\ (length (sl_vals l) <= 1 \/ R = [] \/ exists k R', R = IStar k :: R'))
        by (inversion S; subst; [easy|auto]). destruct SL as (SR & SO & SC).
      cbn [item_find skipn]. destruct Wi as (Cv & _ & Wm & _ & Nv).
      assert (exists m0 r0, (if sl_optional l then optLoop f s rest next else Ok (false, false)) = Ok (m0, r0) /\
         (m0 = true <-> sl_min l = 0%Z /\ sfx (symbols s) R) /\ (r0 = true -> m0 = true)) as (m0 & r0 & -> & M0 & R0).
      { unfold sl_optional. destruct (sl_min l =? 0)%Z eqn:Z1.
        - destruct (HO s rest next) as (m & r & -> & M & Rr); auto; [apply SO; lia|fl|].
          exists m, r. repeat split; auto; try apply M; auto; try lia. intros [_ X]. now apply M.
        - exists false, false. repeat split; auto; try discriminate. lia. }
      destruct (HL s (sl_vals l) rest next) as (b & Eb & Bb); auto; [fl|]. fold R in Bb. cbn [bind].
      assert (D : sfx (symbols s) (IList l :: R) <-> m0 = true \/ b = true).
      { rewrite M0, Bb. cbn [dens den]. split.
        - intros (p & q & E & (w1 & w2 & -> & [[Z1 ->]|(v & I & ->)] & D)); [left; split; auto; exists p, w2; auto|right].
          exists v. split; auto. exists p, w2. auto.
        - intros [[Z1 (p & q & E & D)]|(v & I & pre & y & E & D)].
          + exists p, q. split; auto. exists [], q. split; [reflexivity|]. split; [left; auto|exact D].
          + exists pre, (symbols v ++ y). split; auto. exists (symbols v), y. repeat split; auto. right. eauto. }
      destruct r0.
      * exists true, false. rewrite D. repeat split; auto; try discriminate. 
      * rewrite Eb. cbn [bind]. exists (m0 || b), false. rewrite D, orb_true_iff. repeat split; auto; try tauto; discriminate.
    + (* group after star *)
      assert (SG : (forall v, In v vals -> val_items v <> [] /\ safe_star (val_items v ++ R)) /\ (mn = 0%Z -> R = [] \/ safe_star R))
        by (inversion S; subst; [easy|auto]).
      destruct SG as [SV SR]. cbn [item_find skipn].
      pose proof Wi as Wg. apply wfi_group in Wg as (_ & _ & Wv).
      assert (exists b0, (if group_optional mn then
             if null rest then
               if next_empty next then Ok (null s) else let '(its, nx) := next_next next in bind (matchStarItems f s its nx) (fun '(m, _) => Ok m)
             else bind (matchStarItems f s rest next) (fun '(m, _) => Ok m) else Ok false) = Ok b0 /\
             (b0 = true -> sfx (symbols s) (IGroup vals mn mx :: R))) as (b0 & -> & B0).
      { unfold group_optional. destruct (mn =? 0)%Z eqn:Z1; [|exists false; split; [auto|discriminate]].
        assert (DE : forall q, dens R q -> dens (IGroup vals mn mx :: R) q).
        { intros q D. exists [], q. split; auto. split; auto. apply (den_min_0 u); auto. cbn. lia. }
        assert (Z2 : mn = 0%Z) by lia. specialize (SR Z2).
        destruct rest as [|i rest]; cbn [null].
        - destruct (next_empty next) eqn:E.
          + exists (null s). split; auto. intro N. apply next_empty_iff in E. exists (symbols s), []. rewrite app_nil_r.
            split; auto. apply DE. subst R. rewrite E. reflexivity.
          + pose proof (next_next_spec next E) as N. destruct (next_next next) as [its nx]. destruct N as (N & Lw & NN).
            destruct SR as [SR|SR]; [subst R; cbn in SR; congruence|].
            subst R. cbn [app] in *. rewrite <- N in *. destruct (HI s its nx) as (m & a & -> & M & _); auto; [fl|].
            exists m. split; auto. intro Em. apply M in Em as (p & q & Ep & D). exists p, q. auto.
        - destruct SR as [SR|SR]; [subst R; discriminate|].
          destruct (HI s (i :: rest) next) as (m & a & -> & M & _); auto; [fl|].
          exists m. split; auto. intro Em. apply M in Em as (p & q & Ep & D). exists p, q. auto. }
      cbn [bind]. destruct b0.
      * exists true, false. repeat split; auto; discriminate.
      * destruct (group_go vals (fun v => matchStarItems f s (val_items v) (rest :: next)) (fun v => sfx (symbols s) (val_items v ++ R))) as (m & E & M).
        { intros v I. destruct (SV v I) as [NEv SS]. destruct (HI s (val_items v) (rest :: next)) as (m & a & E & M & _); auto.
          - cbn [concat]. apply Forall_app. split; auto. apply wfi_val. rewrite Forall_forall in Wv. now apply Wv.
          - pose proof (wts_val v). pose proof (in_list_sum wt vals v I). fl.
          - exists m, a. split; auto. }
        cbv beta in E. rewrite E. exists m, false. rewrite M. repeat split; auto; try discriminate.
        -- intros (v & I & p & q & Ep & D). exists p, q. split; auto. apply dens_group_cons. eauto.
        -- intros (p & q & Ep & D). apply dens_group_cons in D as (v & I & D). exists v. split; auto. exists p, q. auto.
    + exfalso. inversion S; easy.
Qed.

Lemma sfx_step s h t F : symbols s = h :: symbols t -> (sfx (symbols s) F <-> dens F (symbols s) \/ sfx (symbols t) F).
Proof.
  intro E. rewrite E. split.
  - intros ([|x p] & q & E2 & D).
    + left. cbn in E2. now subst q.
    + right. cbn in E2. injection E2 as _ E2. exists p, q. auto.
  - intros [D|D]; [now apply dens_sfx|]. change (h :: symbols t) with ([h] ++ symbols t). now apply sfx_app.
Qed.
Lemma sfx_empty F s : symbols s = [] -> (sfx (symbols s) F <-> dens F (symbols s)).
Proof.
  intro E. rewrite E. split.
  - intros (p & q & E2 & D). symmetry in E2. apply app_eq_nil in E2 as [-> ->]. auto.
  - apply dens_sfx.
Qed.

Lemma step_O f : PM f -> PSI f -> PO f -> PO (S f).
Proof.
  intros HM HI HO s rest next F W K SF SF' L. cbn [optLoop].
  assert (Sh : forall (Q : Prop), (Q <-> ~ dens F (symbols s)) -> Q -> exists m r, (let '(_, n) := decode_rune s in
      if Nat.eqb n 0 then Ok (false, false) else optLoop f (skipn n s) rest next) = Ok (m, r) /\ (m = true <-> sfx (symbols s) F) /\ (r = true -> m = true)).
  { intros Q HQ q. apply HQ in q. pose proof (decode_head s) as D. destruct (decode_rune s) as [c n]. cbn [snd] in D.
    destruct n as [|n]; cbn [Nat.eqb].
    - exists false, false. repeat split; auto; try discriminate. intro X. apply sfx_empty in X; [easy|now rewrite D].
    - destruct D as (h & t & Es & Et & Ey & Lt). rewrite Et. destruct (HO t rest next) as (m & r & -> & M & Rr); auto.
      { eapply (okstr_suffix s t [h]); auto. } { fl. }
      exists m, r. repeat split; auto; rewrite (sfx_step _ _ _ _ Ey); [right; now apply M|intros [X|X]; [easy|now apply M]]. }
  destruct rest as [|i rest]; cbn [null].
  - destruct (next_empty next) eqn:E.
    + apply next_empty_iff in E. assert (T : sfx (symbols s) F) by (subst F; rewrite E; exists (symbols s), []; rewrite app_nil_r; split; reflexivity).
      destruct (null s) eqn:N.
      * exists true, false. repeat split; auto; discriminate.
      * apply (Sh (~ dens F (symbols s))); [reflexivity|]. subst F. rewrite E. cbn. intro X. apply null_symbols in X. congruence.
    + pose proof (next_next_spec next E) as N. destruct (next_next next) as [its nx]. destruct N as (N & Lw & NN).
      subst F. cbn [app] in *. rewrite <- N in *. destruct (HM s its nx W K SF') as (m & a & -> & M & _); [fl|]. cbn [bind].
      destruct m.
      * exists true, true. repeat split; auto. intros _. apply dens_sfx. now apply M.
      * apply (Sh (~ dens (its ++ concat nx) (symbols s))); [reflexivity|]. intro X. apply M in X. discriminate.
  - destruct SF as [SF|SF]; [subst F; discriminate|].
    destruct (HI s (i :: rest) next) as (m & a & -> & M & _); auto; [fl|]. cbn [bind]. fold F in M. destruct m.
    + exists true, true. repeat split; auto. intros _. now apply M.
    + apply (Sh (~ dens F (symbols s))); [reflexivity|]. intro X. apply dens_sfx in X. apply M in X. discriminate.
Qed.

Lemma pre_len_mono (l p1 q1 p2 q2 : list str) : l = p1 ++ q1 -> l = p2 ++ q2 -> Forall (fun x => x <> []) l ->
  length (concat p1) <= length (concat p2) -> length p1 <= length p2.
Proof.
  intros E1 E2 F L. destruct (le_lt_dec (length p1) (length p2)) as [G|G]; auto. exfalso.
  rewrite E1 in E2. symmetry in E2. destruct (app_suffix _ _ _ _ E2) as (z & -> & _); [lia|].
  rewrite concat_app, app_length in L. rewrite app_length in G. destruct z as [|x z]; [cbn in G; lia|].
  subst l. rewrite <- app_assoc in F. apply Forall_app in F as [_ F]. cbn in F. inversion F; subst. cbn in L. rewrite app_length in L. destruct x; [easy|]. cbn in L. lia.
Qed.

Lemma find_go s (cont : str -> res bool) R : okstr s -> forall vals off0, Forall clean vals ->
  (forall t, okstr t -> length t <= length s -> exists b, cont t = Ok b /\ (b = true <-> dens R (symbols t))) ->
  exists r, (fix go (vs : list str) (offset : option nat) : res (unit + option nat) :=
             match vs with
             | [] => Ok (inr offset)
             | v :: vs' =>
                 match find_val s v with
                 | None => go vs' offset
                 | Some o =>
                     let offset' := match offset with
                                    | None => Some o
                                    | Some p => if p <? o then Some o else Some p
                                    end in
                     bind (cont (skipn (o + length v) s)) (fun m =>
                     if m then Ok (inl tt) else go vs' offset')
                 end
             end) vals off0 = Ok r /\
    match r with
    | inl _ => exists v, In v vals /\ exists pre y, symbols s = pre ++ symbols v ++ y /\ dens R y
    | inr off =>
        (forall v, In v vals -> match find_val s v with
           | None => True
           | Some o => ~ dens R (symbols (skipn (o + length v) s)) /\ exists m, off = Some m /\ o <= m end) /\
        (off = off0 \/ exists v m, In v vals /\ off = Some m /\ find_val s v = Some m) /\
        (forall p, off0 = Some p -> exists m, off = Some m /\ p <= m)
    end.
Proof.
  intro K. induction vals as [|v vs IH]; intros off0 Cv C.
  - exists (inr off0). split; auto. split; [intros v []|]. split; auto. intros p ->. exists p. auto.
  - inversion Cv as [|? ? Cv1 Cvs]; subst. pose proof (find_text_spec s v Cv1) as Fv. unfold find_val at 1.
    destruct (index_of s v) as [o|] eqn:Ei.
    + destruct Fv as (pre & y & E & -> & Min).
      destruct (len_concat_symbols _ _ _ E) as (_ & Exy & Le & _). destruct (len_concat_symbols _ _ _ Exy) as (_ & Ey & Le1 & _).
      rewrite concat_symbols, skipn_plus in Ey.
      destruct (C (skipn (length (concat pre) + length v) s)) as (b & -> & Bb).
      { eapply (okstr_suffix s _ (pre ++ symbols v)); auto. rewrite Ey, <- app_assoc. exact E. } { rewrite skipn_length. lia. }
      rewrite Ey in Bb. cbn [bind]. destruct b.
      * exists (inl tt). split; auto. exists v. split; [now left|]. exists pre, y. split; auto. now apply Bb.
      * cbv zeta. set (off1 := match off0 with None => _ | Some p => _ end).
        assert (O1 : exists m1, off1 = Some m1 /\ length (concat pre) <= m1 /\ (off1 = off0 \/ m1 = length (concat pre)) /\ forall p, off0 = Some p -> p <= m1).
        { unfold off1. destruct off0 as [p|]; [destruct (p <? length (concat pre)) eqn:Lp|].
          - exists (length (concat pre)). repeat split; auto. intros p0 [= <-]. lia.
          - exists p. repeat split; auto; [lia|]. intros p0 [= <-]. lia.
          - exists (length (concat pre)). repeat split; auto. discriminate. }
        destruct O1 as (m1 & E1 & G1 & G2 & G3).
        destruct (IH off1 Cvs C) as (r & Er & Hr). cbv zeta in Er. rewrite Er. clear Er. exists r. split; auto. destruct r as [x|off].
        -- destruct Hr as (v' & I & X). exists v'. split; auto. now right.
        -- destruct Hr as (H1 & H2 & H3). destruct (H3 m1 E1) as (m & Em & Lm). repeat split.
           ++ intros v' [<-|I]; [|now apply H1]. unfold find_val. rewrite Ei. rewrite Ey. split.
              ** intro X. apply Bb in X. discriminate.
              ** exists m. split; auto. lia.
           ++ destruct H2 as [H2|(v' & m' & I & X)].
              ** destruct G2 as [G2|G2]; [left; congruence|]. right. exists v, m1. split; [now left|]. rewrite H2. split; auto. unfold find_val. congruence.
              ** right. exists v', m'. split; auto. now right.
           ++ intros p Ep. exists m. split; auto. apply G3 in Ep. lia.
    + destruct (IH off0 Cvs C) as (r & Er & Hr). cbv zeta in Er |- *. rewrite Er. clear Er. exists r. split; auto. destruct r as [x|off].
      * destruct Hr as (v' & I & X). exists v'. split; auto. now right.
      * destruct Hr as (H1 & H2 & H3). repeat split; auto.
        -- intros v' [<-|I]; [|now apply H1]. unfold find_val. now rewrite Ei.
        -- destruct H2 as [H2|(v' & m' & I & X)]; auto. right. exists v', m'. split; auto. now right.
Qed.

Lemma step_L f : PM f -> PL f -> PL (S f).
Proof.
  intros HM HL s vals rest next F W K SF Cv Nv SC L. cbn [listLoop].
  assert (C : forall t, okstr t -> length t <= length s -> exists b, (if null rest then
          if next_empty next then Ok (null t) else let '(its, nx) := next_next next in bind (matchItems f t its nx) (fun '(m, _) => Ok m)
          else bind (matchItems f t rest next) (fun '(m, _) => Ok m)) = Ok b /\ (b = true <-> dens F (symbols t))).
  { intros t Kt Lt. apply cont_spec; auto. fl. }
  destruct (find_go s (fun t => if null rest then
          if next_empty next then Ok (null t) else let '(its, nx) := next_next next in bind (matchItems f t its nx) (fun '(m, _) => Ok m)
          else bind (matchItems f t rest next) (fun '(m, _) => Ok m)) F K vals None Cv C) as (r & E & Hr).
  cbv beta zeta in E. cbv zeta. rewrite E. clear E C. cbn [bind]. destruct r as [x|off].
  - exists true. split; auto. split; auto.
  - destruct Hr as (H1 & H2 & _). destruct off as [o|].
    + destruct H2 as [H2|(vm & m & Im & [= <-] & Fm)]; [discriminate|].
      rewrite Forall_forall in Cv, Nv. pose proof (find_text_spec s vm (Cv _ Im)) as Fv. unfold find_val in Fm. rewrite Fm in Fv.
      destruct Fv as (prem & ym & Em & -> & Minm).
      destruct (len_concat_symbols _ _ _ Em) as (_ & Exy & Le & _). set (s1 := skipn (length (concat prem)) s) in *.
      assert (K1 : okstr s1) by (eapply okstr_suffix; [exact K|]; rewrite Exy; exact Em).
      assert (L1 : length s1 <= length s) by (unfold s1; rewrite skipn_length; lia).
      pose proof (decode_head s1) as D. destruct (decode_rune s1) as [c n]. cbn [snd] in D. destruct n as [|n]; cbn [Nat.eqb].
      { exfalso. rewrite D, symbols_nil in Exy. symmetry in Exy. apply app_eq_nil in Exy as [Exy _]. apply symbols_eq_nil in Exy. now apply (Nv vm). }
      destruct D as (h & t & Es & Et & Ey & Lt). rewrite Et.
      destruct (HL t vals rest next) as (b & -> & Bb); auto.
      { eapply (okstr_suffix s1 t [h]); auto. } { now apply Forall_forall. } { now apply Forall_forall. } { fl. }
      exists b. split; auto. rewrite Bb. fold F. clear Bb. split.
      * intros (v & I & pre & y & E & D). exists v. split; auto. exists (prem ++ h :: pre), y. split; auto.
        rewrite Em, <- Exy, Ey, E, <- app_assoc. reflexivity.
      * intros (v & I & pre & y & E & D). exists v. split; auto.
        destruct (le_lt_dec (length pre) (length prem)) as [Lp|Lp].
        2:{ rewrite Em in E. destruct (app_suffix _ _ _ _ E) as (z & -> & Ez); [lia|]. rewrite app_length in Lp. destruct z as [|h' z]; [cbn in Lp; lia|].
            exists z, y. split; auto. rewrite Exy in Ey. rewrite Ez in Ey. cbn in Ey. now injection Ey. }
        exfalso. pose proof (H1 v I) as Hv. unfold find_val in Hv. pose proof (find_text_spec s v (Cv _ I)) as Fv.
        destruct (index_of s v) as [o|] eqn:Ei; [|now apply (Fv pre y)].
        destruct Fv as (pv & yv & Ev & -> & Minv). destruct Hv as (Nd & m & [= <-] & Lo).
        destruct (len_concat_symbols _ _ _ Ev) as (_ & Exy2 & _). destruct (len_concat_symbols _ _ _ Exy2) as (_ & Eyv & _).
        rewrite concat_symbols, skipn_plus in Eyv. rewrite Eyv in Nd.
        pose proof (Minv pre y E) as Lv.
        assert (Ls : length pv < length pre).
        { destruct (Nat.eq_dec (length pv) (length pre)) as [G|G]; [|lia]. exfalso. rewrite Ev in E. apply app_len_inj in E as [_ E]; auto.
          apply app_inv_head in E. now subst yv. }
        destruct SC as [SC|[SC|(k & R' & SC)]].
        -- destruct vals as [|v1 [|? ?]]; [easy| |cbn in SC; lia]. destruct I as [<-|[]]. destruct Im as [<-|[]].
           rewrite Ev in Em. pose proof (Minm pv yv Ev). lia.
        -- rewrite SC in D. cbn in D. subst y. rewrite app_nil_r in E. rewrite Em in E. symmetry in E.
           destruct (app_suffix _ _ _ _ E Lp) as (z & Ez & Ezv). rewrite Ezv in Ev.
           pose proof (Minm (pv ++ z) (ym ++ yv)) as G. rewrite Ev in G. rewrite <- !app_assoc in G. specialize (G eq_refl).
           rewrite Ez, !app_length in G. lia.
        -- rewrite Ev in E. rewrite !app_assoc in E. destruct (app_suffix _ _ _ _ E) as (z & _ & ->); [rewrite !app_length; lia|].
           apply Nd. rewrite SC in *. now apply dens_star_absorb.
    + exists false. split; auto. split; [discriminate|]. intros (v & I & pre & y & E & D). exfalso.
      pose proof (H1 v I) as Hv. unfold find_val in Hv. rewrite Forall_forall in Cv. pose proof (find_text_spec s v (Cv _ I)) as Fv.
      destruct (index_of s v) as [o|]; [destruct Hv as (_ & m & Em & _); discriminate|]. now apply (Fv pre y).
Qed.

Lemma all_steps f : PM f /\ PSI f /\ PSL f /\ PO f /\ PL f.
Proof.
  induction f as [|f (A & B & C & D & E)].
  - repeat split.
    + intros ? ? ? ? ? ? ? ?; unfold fuelM in *; lia.
    + intros ? ? ? ? ? ? ? ?; unfold fuelM in *; lia.
    + intros ? ? ? ? ? ? ? ? ?; unfold fuelM in *; lia.
    + intros ? ? ? ? ? ? ? ? ?; unfold fuelM in *; lia.
    + intros ? ? ? ? ? ? ? ? ? ? ? ?; unfold fuelM in *; lia.
  - split; [now apply step_M|]. split; [now apply step_SI|]. split; [now apply step_SL|]. split; [now apply step_O|now apply step_L].
Qed.

Theorem match_items_exact s items : Forall (wfi u) items -> okstr s -> safe items ->
  exists m, match_items s items = Ok m /\ (m = true <-> dens items (symbols s)).
Proof.
  intros W K S. unfold match_items. destruct (all_steps (match_fuel s items)) as [P _].
  destruct (P s items []) as (m & a & -> & M & _); cbn [concat]; rewrite ?app_nil_r; auto.
  - unfold fuelM, match_fuel. pose proof (wts_weight items). change (wnext []) with 0. nia.
  - exists m. split; auto. cbn [concat] in M. now rewrite app_nil_r in M.
Qed.
End Match.
