(** Matching a tree of items whose paths are regular. *)
From Verif Require Import Model.Tree Spec.Symbols Spec.Lang Spec.Safe.
From Verif Require Import Proof.Utf8P Proof.SymbolsP Proof.SkipP Proof.LangP Proof.ItemP Proof.MatchP Proof.SafeP.
From Coq Require Import Lia ZifyBool ZifyN ZifyNat.

(** ** Answers that do not change once there is enough fuel *)
Definition ev {A} (F : nat -> res A) (P : A -> Prop) : Prop := exists f0 a, P a /\ forall f, f0 <= f -> F f = Ok a.
Lemma ev_ok {A} (a : A) (P : A -> Prop) : P a -> ev (fun _ => Ok a) P.
Proof. intro H. exists 0, a. auto. Qed.
Lemma ev_step {A} (F : nat -> res A) P : ev (fun f => F (S f)) P -> ev F P.
Proof. intros (f0 & a & H & E). exists (S f0), a. split; auto. intros [|f] L; [lia|]. apply E. lia. Qed.
Lemma ev_weak {A} (F : nat -> res A) (P Q : A -> Prop) : ev F P -> (forall a, P a -> Q a) -> ev F Q.
Proof. intros (f0 & a & H & E) W. exists f0, a. auto. Qed.
Lemma ev_bind {A C} (F : nat -> res A) (K : nat -> A -> res C) P Q : ev F P -> (forall a, P a -> ev (fun f => K f a) Q) -> ev (fun f => bind (F f) (K f)) Q.
Proof.
  intros (f0 & a & H & E) HK. destruct (HK a H) as (f1 & b & Hb & Eb). exists (f0 + f1), b. split; auto. intros f L. rewrite E by lia. cbn. apply Eb. lia.
Qed.
Definition rep (P : term -> Prop) (o : out) : Prop := forall x, In x (fst o) <-> P x.
Lemma rep_ext P Q o : (forall x, P x <-> Q x) -> rep P o -> rep Q o.
Proof. intros E H x. rewrite <- E. apply H. Qed.
Lemma rep_none P : (forall x, ~ P x) -> rep P out_none.
Proof. intros H x. cbn. split; [easy|apply H]. Qed.
Lemma rep_emit tm : rep (fun x => tm = Some x) (emit tm).
Proof. intro x. destruct tm as [y|]; cbn; split; try easy; [intros [->|[]]; auto|]. intros [= ->]. now left. Qed.
Lemma rep_app P Q a b : rep P a -> rep Q b -> rep (fun x => P x \/ Q x) (out_app a b).
Proof. intros H K x. cbn. rewrite in_app_iff. rewrite (H x), (K x). reflexivity. Qed.
Lemma ev_seq (F G : nat -> res out) P Q : ev F (rep P) -> ev G (rep Q) -> ev (fun f => oseq (F f) (G f)) (rep (fun x => P x \/ Q x)).
Proof.
  intros H K. unfold oseq. apply (ev_bind F (fun f x => bind (G f) (fun y => Ok (out_app x y))) (rep P)); auto.
  intros a Ha. apply (ev_bind G (fun f y => Ok (out_app a y)) (rep Q)); auto. intros b Hb. apply ev_ok. now apply rep_app.
Qed.
Lemma ev_all {A} (l : list A) (F : nat -> A -> res out) (P : A -> term -> Prop) :
  (forall a, In a l -> ev (fun f => F f a) (rep (P a))) -> ev (fun f => oall (F f) l) (rep (fun x => exists a, In a l /\ P a x)).
Proof.
  induction l as [|a l IH]; intro H; cbn [oall].
  - apply ev_ok, rep_none. now intros x (a & [] & _).
  - eapply ev_weak; [apply ev_seq; [apply (H a); now left|apply IH; intros b J; apply H; now right]|].
    intros o. apply rep_ext. intro x. split.
    + intros [Hx|(b & J & Hx)]; [exists a; split; auto; now left|exists b; split; auto; now right].
    + intros (b & [<-|J] & Hx); [now left|right; exists b; auto].
Qed.
Lemma ev_rep (F : nat -> res out) P Q : ev F (rep P) -> (forall x, P x <-> Q x) -> ev F (rep Q).
Proof. intros H E. eapply ev_weak; [exact H|]. intros o. now apply rep_ext. Qed.

(** ** Regular trees and what they keep *)
Section Tree.
Variable u : bool.
Inductive okt : stage -> tree -> Prop :=
| okt_node st it st' r tm cs : wfi u it -> step st it st' -> (forall c, In c cs -> t_reverse c = false) -> (forall c, In c cs -> okt st' c) -> okt st (TNode (Some it) r tm cs).
Definition is_star (it : item) : bool := match it with IStar _ => true | _ => false end.
Definition is_lit (it : item) : bool := match it with IStr _ | IByte _ | IRune _ | IRanges _ => true | _ => false end.
(** [kept after t p x]: x is reported for the path p of the tree t; [after]: t is reached by a star. *)
Inductive kept : bool -> tree -> list item -> term -> Prop :=
| kept_here after it r cs x : (is_star it = true \/ (after = true /\ is_lit it = true) -> cs = []) -> kept after (TNode (Some it) r (Some x) cs) [it] x
| kept_below after it r tm cs c p x : In c cs -> kept (is_star it) c p x -> kept after (TNode (Some it) r tm cs) (it :: p) x.

Definition Hx (tm : option term) (cs : list tree) (w : list str) (x : term) : Prop :=
  (tm = Some x /\ w = []) \/ exists c p, In c cs /\ kept false c p x /\ dens p w.
Definition matched (t : tree) (w : list str) (x : term) : Prop := exists p, kept false t p x /\ dens p w.
Definition matched_star (t : tree) (w : list str) (x : term) : Prop := exists p, kept true t p x /\ sfx w p.
Lemma matched_other it r tm cs w x : is_star it = false ->
  (matched (TNode (Some it) r tm cs) w x <-> exists w1 w2, w = w1 ++ w2 /\ den it w1 /\ Hx tm cs w2 x).
Proof.
  intro NS. split.
  - intros (p & K & D). inversion K as [? ? ? ? ? Cnd|? ? ? ? ? c p' ? J Kc]; subst.
    + destruct D as (w1 & w2 & -> & D1 & ->). exists w1, []. repeat split; auto. now left.
    + destruct D as (w1 & w2 & -> & D1 & D2). exists w1, w2. repeat split; auto. right. exists c, p'. rewrite NS in Kc. auto.
  - intros (w1 & w2 & -> & D & [[-> ->]|(c & p & J & K & D2)]).
    + exists [it]. split; [|exists w1, []; repeat split; auto]. constructor. rewrite NS. intros [?|[? ?]]; discriminate.
    + exists (it :: p). split; [|exists w1, w2; auto]. econstructor; [exact J|]. now rewrite NS.
Qed.
Lemma matched_star_it k r tm cs w x :
  matched (TNode (Some (IStar k)) r tm cs) w x <-> k <= length w /\ ((tm = Some x /\ cs = []) \/ exists c, In c cs /\ matched_star c (skipn k w) x).
Proof.
  split.
  - intros (p & K & D). inversion K as [? ? ? ? ? Cnd|? ? ? ? ? c p' ? J Kc]; subst; apply sfx_star in D as [L D]; (split; [exact L|]).
    + left. split; auto.
    + right. exists c. split; auto. exists p'. auto.
  - intros (L & [[-> ->]|(c & J & p & K & D)]).
    + exists [IStar k]. split; [constructor; auto|]. apply sfx_star. split; auto. exists (skipn k w), []. rewrite app_nil_r. split; reflexivity.
    + exists (IStar k :: p). split; [econstructor; [exact J|exact K]|]. now apply sfx_star.
Qed.
Definition Hs (tm : option term) (cs : list tree) (w : list str) (x : term) : Prop :=
  (tm = Some x /\ cs = [] /\ w = []) \/ exists c p, In c cs /\ kept false c p x /\ dens p w.
Lemma matched_after_lit it r tm cs w x : is_star it = false -> is_lit it = true ->
  (matched_star (TNode (Some it) r tm cs) w x <-> exists pre w1 w2, w = pre ++ w1 ++ w2 /\ den it w1 /\ Hs tm cs w2 x).
Proof.
  intros NS IL. split.
  - intros (p & K & (pre & post & -> & D)). inversion K as [? ? ? ? ? Cnd|? ? ? ? ? c p' ? J Kc]; subst; destruct D as (w1 & w2 & -> & D1 & D2); exists pre, w1, w2; repeat split; auto.
    + left. repeat split; auto.
    + right. exists c, p'. rewrite NS in Kc. auto.
  - intros (pre & w1 & w2 & -> & D & [(-> & -> & ->)|(c & p & J & K & D2)]).
    + exists [it]. split; [constructor; auto|]. exists pre, (w1 ++ []). split; auto. exists w1, []. repeat split; auto.
    + exists (it :: p). split; [econstructor; [exact J|]; now rewrite NS|]. exists pre, (w1 ++ w2). split; auto. exists w1, w2. auto.
Qed.
Lemma matched_after_other it r tm cs w x : is_star it = false -> is_lit it = false ->
  (matched_star (TNode (Some it) r tm cs) w x <-> exists pre w1 w2, w = pre ++ w1 ++ w2 /\ den it w1 /\ Hx tm cs w2 x).
Proof.
  intros NS NL. split.
  - intros (p & K & (pre & post & -> & D)). inversion K as [? ? ? ? ? Cnd|? ? ? ? ? c p' ? J Kc]; subst; destruct D as (w1 & w2 & -> & D1 & D2); exists pre, w1, w2; repeat split; auto.
    + left. repeat split; auto.
    + right. exists c, p'. rewrite NS in Kc. auto.
  - intros (pre & w1 & w2 & -> & D & [(-> & ->)|(c & p & J & K & D2)]).
    + exists [it]. split; [constructor; rewrite NS, NL; intros [?|[_ ?]]; discriminate|]. exists pre, (w1 ++ []). split; auto. exists w1, []. repeat split; auto.
    + exists (it :: p). split; [econstructor; [exact J|]; now rewrite NS|]. exists pre, (w1 ++ w2). split; auto. exists w1, w2. auto.
Qed.
Lemma matched_after_list l r tm cs w x :
  (matched_star (TNode (Some (IList l)) r tm cs) w x <-> exists pre w1 w2, w = pre ++ w1 ++ w2 /\ den (IList l) w1 /\ Hx tm cs w2 x).
Proof. now apply matched_after_other. Qed.
Lemma matched_star_mono t z w x : matched_star t w x -> matched_star t (z ++ w) x.
Proof. intros (p & K & D). exists p. split; auto. now apply sfx_app. Qed.

Definition PMt (t : tree) : Prop := forall s, okstr u s -> ev (fun f => t_match f t s) (rep (matched t (symbols s))).
Definition PSt (t : tree) : Prop := forall s b, okstr u s -> ev (fun f => t_match_star f t s b) (rep (matched_star t (symbols s))).

Lemma short_no it s pre w1 w2 : wfi u it -> (zlen s < item_min it)%Z -> symbols s = pre ++ w1 ++ w2 -> ~ den it w1.
Proof.
  intros W L E D. pose proof (word_symbols s) as Ws. rewrite E in Ws. apply word_app in Ws as [_ Ws]. apply word_app in Ws as [Ws _].
  pose proof (den_word_min u it W w1 Ws D). pose proof (bytes_symbols s) as Bs. rewrite E, !bytes_app in Bs. pose proof (bytes_nonneg pre). pose proof (bytes_nonneg w2). lia.
Qed.

Lemma here_ev tm cs s : okstr u s -> (forall c, In c cs -> PMt c) ->
  ev (fun f => oseq (emit_if (null s) tm) (oall (fun c => t_match f c s) cs)) (rep (Hx tm cs (symbols s))).
Proof.
  intros K H. eapply ev_rep; [apply ev_seq with (P := fun x => tm = Some x /\ symbols s = []); [|apply ev_all; intros c J; apply (H c J s K)]|].
  - unfold emit_if. apply ev_ok.
    destruct (null s) eqn:N.
    + apply null_symbols in N. apply (rep_ext (fun x => tm = Some x)); [intro x; tauto|apply rep_emit].
    + apply rep_none. intros x [_ E]. apply null_symbols in E. congruence.
  - intro x. unfold Hx, matched. split.
    + intros [H0|(c & J & p & Kp & D)]; [now left|right; exists c, p; auto].
    + intros [H0|(c & p & J & Kp & D)]; [now left|right; exists c; split; auto; exists p; auto].
Qed.

Lemma items_ev it0 r tm cs : (forall c, In c cs -> PMt c) -> forall its s, Forall one_item its -> Forall (wfi u) its -> okstr u s ->
  ev (fun f => t_items f (TNode it0 r tm cs) s its) (rep (fun x => exists w1 w2, symbols s = w1 ++ w2 /\ dens its w1 /\ Hx tm cs w2 x)).
Proof.
  intro HC. induction its as [|it its IH]; intros s O W K; apply ev_step.
  - eapply ev_rep; [apply (here_ev tm cs s K HC)|]. intro x. split.
    + intro H. exists [], (symbols s). repeat split; auto.
    + intros (w1 & w2 & E & D & H). cbn in D. subst w1. cbn in E. now rewrite E.
  - inversion O as [|? ? O1 O2]; subst. inversion W as [|? ? W1 W2]; subst. cbn [t_items].
    destruct (zlen s <? item_min it)%Z eqn:Z0.
    { apply ev_ok, rep_none. intros x (w1 & w2 & E & (v1 & v2 & -> & D1 & D2) & _). apply (short_no it s [] v1 (v2 ++ w2)); auto; [lia|]. cbn [app]. now rewrite app_assoc. }
    pose proof (item_match_one u it s W1 O1) as M. destruct (item_match it s) as [[off|] fl]; destruct M as [-> M].
    + destruct M as (w & y & E & D & ->). destruct (len_concat_symbols _ _ _ E) as (_ & Ey & _). cbn [skipn].
      eapply ev_rep; [apply (IH (skipn (length (concat w)) s) O2 W2)|].
      { eapply okstr_suffix; [exact K|]. rewrite Ey. exact E. }
      intro x. rewrite Ey. split.
      * intros (w1 & w2 & -> & D1 & H). exists (w ++ w1), w2. rewrite <- app_assoc. repeat split; auto. exists w, w1. auto.
      * intros (w1 & w2 & E2 & (v1 & v2 & -> & D1 & D2) & H). rewrite E, <- app_assoc in E2. apply app_len_inj in E2 as [<- ->]; [|rewrite (den_cnt _ _ O1 D), (den_cnt _ _ O1 D1); auto].
        exists v2, w2. auto.
    + apply ev_ok, rep_none. intros x (w1 & w2 & E & (v1 & v2 & -> & D1 & D2) & _). rewrite <- app_assoc in E. exact (M _ _ E D1).
Qed.

(** ** Trees met without a star before them *)
Lemma match_one_ev it r tm cs : wfi u it -> one_item it -> (forall c, In c cs -> PMt c) -> PMt (TNode (Some it) r tm cs).
Proof.
  intros W O HC s K. assert (NS : is_star it = false) by (destruct it; easy). apply ev_step. cbn [t_match].
  destruct (zlen s <? item_min it)%Z eqn:Z0.
  { apply ev_ok, rep_none. intros x H. apply matched_other in H as (w1 & w2 & E & D & _); auto. apply (short_no it s [] w1 w2); auto. lia. }
  pose proof (item_match_one u it s W O) as M. destruct (item_match it s) as [[off|] fl]; destruct M as [-> M].
  - destruct M as (w & y & E & D & ->). destruct (len_concat_symbols _ _ _ E) as (_ & Ey & _).
    eapply ev_rep; [apply (here_ev tm cs (skipn (length (concat w)) s)); auto|].
    { eapply okstr_suffix; [exact K|]. rewrite Ey. exact E. }
    intro x. rewrite Ey, matched_other by auto. split.
    + intro H. exists w, y. auto.
    + intros (w1 & w2 & E2 & D1 & H). rewrite E in E2. apply app_len_inj in E2 as [<- <-]; auto. rewrite (den_cnt _ _ O D), (den_cnt _ _ O D1); auto.
  - apply ev_ok, rep_none. intros x H. apply matched_other in H as (w1 & w2 & E & D & _); auto. exact (M _ _ E D).
Qed.
Lemma match_list_ev l r tm cs : wfi u (IList l) -> (forall c, In c cs -> PMt c) -> PMt (TNode (Some (IList l)) r tm cs).
Proof.
  intros W HC s K. apply ev_step. cbn [t_match].
  destruct (zlen s <? item_min (IList l))%Z eqn:Z0.
  { apply ev_ok, rep_none. intros x H. apply matched_other in H as (w1 & w2 & E & D & _); auto. apply (short_no (IList l) s [] w1 w2); auto. lia. }
  destruct W as (Cv & _). cbn [item_match skipn]. rewrite Forall_forall in Cv.
  eapply ev_rep; [apply ev_seq with (P := fun x => sl_min l = 0%Z /\ Hx tm cs (symbols s) x)|].
  - unfold sl_optional. destruct (sl_min l =? 0)%Z eqn:Z1.
    + eapply ev_rep; [apply (here_ev tm cs s K HC)|]. intro x. split; [intro; split; auto; lia|tauto].
    + apply ev_ok, rep_none. intros x [? _]. lia.
  - apply ev_all with (P := fun v x => exists y, symbols s = symbols v ++ y /\ Hx tm cs y x). intros v J.
    pose proof (match_val_spec s v (Cv v J)) as M. destruct (match_val s v) as [o|].
    + destruct M as [-> M]. eapply ev_rep; [apply (here_ev tm cs (skipn (length v) s)); auto; eapply okstr_suffix; [exact K|exact M]|].
      intro x. split; [intro H; exists (symbols (skipn (length v) s)); auto|]. intros (y & E & H). rewrite M in E. apply app_inv_head in E. now rewrite E.
    + apply ev_ok, rep_none. intros x (y & E & _). now apply (M y).
  - intro x. rewrite matched_other by auto. cbn [den]. split.
    + intros [[Z1 H]|(v & J & y & E & H)]; [exists [], (symbols s); auto|]. exists (symbols v), y. repeat split; auto. right. exists v. auto.
    + intros (w1 & w2 & E & [[Z1 ->]|(v & J & ->)] & H); [left; split; auto; cbn in E; now rewrite E|]. right. exists v. split; auto. exists w2. auto.
Qed.
Lemma match_group_ev vals mn mx r tm cs : wfi u (IGroup vals mn mx) -> one_group vals -> (forall c, In c cs -> PMt c) -> PMt (TNode (Some (IGroup vals mn mx)) r tm cs).
Proof.
  intros W O HC s K. apply ev_step. cbn [t_match].
  destruct (zlen s <? item_min (IGroup vals mn mx))%Z eqn:Z0.
  { apply ev_ok, rep_none. intros x H. apply matched_other in H as (w1 & w2 & E & D & _); auto. apply (short_no (IGroup vals mn mx) s [] w1 w2); auto. lia. }
  cbn [item_match skipn]. destruct W as (_ & Wo & Wv).
  assert (Wf : forall v, In v vals -> wfi u v).
  { clear - Wv. intros v J. induction vals as [|a vals IH]; [easy|]. destruct Wv as (_ & W & Wr). destruct J as [<-|J]; auto. }
  eapply ev_rep; [apply ev_seq with (P := fun x => mn = 0%Z /\ Hx tm cs (symbols s) x)|].
  - unfold group_optional. destruct (mn =? 0)%Z eqn:Z1.
    + eapply ev_rep; [apply (here_ev tm cs s K HC)|]. intro x. split; [intro; split; auto; lia|tauto].
    + apply ev_ok, rep_none. intros x [? _]. lia.
  - apply ev_all. intros v J. apply (items_ev (Some (IGroup vals mn mx)) r tm cs HC (val_items v) s (O v J)); auto. apply wfi_val. auto.
  - intro x. rewrite matched_other by auto. split.
    + intros [[Z1 H]|(v & J & w1 & w2 & E & D & H)].
      * exists [], (symbols s). repeat split; auto. apply den_group. specialize (Wo Z1). apply Exists_exists in Wo as (v & J & Zv). exists v. split; auto. apply (den_min_0 u); auto.
      * exists w1, w2. repeat split; auto. apply den_group. exists v. split; auto. now apply den_val_items.
    + intros (w1 & w2 & E & D & H). right. apply den_group in D as (v & J & D). exists v. split; auto. exists w1, w2. repeat split; auto. now apply den_val_items.
Qed.
Lemma match_star_ev k r tm cs : (forall c, In c cs -> PSt c) -> PMt (TNode (Some (IStar k)) r tm cs).
Proof.
  intros HC s K. apply ev_step. cbn [t_match].
  destruct (zlen s <? item_min (IStar k))%Z eqn:Z0.
  { apply ev_ok, rep_none. intros x H. apply matched_star_it in H as [L _]. apply (short_no (IStar k) s [] (symbols s) []); [exact I|lia|now rewrite app_nil_r|exact L]. }
  cbn [item_match]. rewrite skip_runes_symbols. destruct (k <=? length (symbols s)) eqn:L.
  - assert (E : symbols s = firstn k (symbols s) ++ skipn k (symbols s)) by (symmetry; apply firstn_skipn).
    destruct (len_concat_symbols _ _ _ E) as (_ & Ey & _). set (s1 := skipn _ s) in *.
    assert (K1 : okstr u s1) by (eapply okstr_suffix; [exact K|]; rewrite Ey; exact E).
    destruct cs as [|c cs]; cbn [null].
    + apply ev_ok. eapply rep_ext; [|apply rep_emit]. intro x. rewrite matched_star_it. split; [intro; split; [lia|now left]|].
      intros [_ [[H _]|(c & [] & _)]]. exact H.
    + eapply ev_rep; [apply (ev_all (c :: cs) (fun f c => t_match_star f c s1 true) (fun c => matched_star c (symbols s1)))|].
      * intros d J. now apply HC.
      * intro x. rewrite matched_star_it, Ey. split; [intro; split; [lia|now right]|]. intros [_ [[_ ?]|H]]; [discriminate|exact H].
  - apply ev_ok, rep_none. intros x H. apply matched_star_it in H. lia.
Qed.

(** ** Trees met after a star *)
Lemma shift_ev t s b : (forall h y, symbols s = h :: symbols y -> okstr u y -> ev (fun f => t_match_star f t y b) (rep (matched_star t (symbols y)))) -> okstr u s ->
  ev (fun f => let '(_, n) := decode_rune s in if Nat.eqb n 0 then Ok out_none else t_match_star f t (skipn n s) b)
     (rep (fun x => exists h w, symbols s = h :: w /\ matched_star t w x)).
Proof.
  intros H K. pose proof (decode_head s) as D. destruct (decode_rune s) as [c n]. cbn [snd] in D. destruct n as [|n]; cbn [Nat.eqb].
  - apply ev_ok, rep_none. subst s. intros x (h & w & E & _). discriminate.
  - destruct D as (h & y & Es & -> & Ey & _). assert (Ky : okstr u y) by (eapply (okstr_suffix u s y [h]); auto).
    eapply ev_rep; [apply (H h y Ey Ky)|]. intro x. rewrite Ey. split; [intro M; exists h, (symbols y); auto|]. intros (h' & w & [= _ <-] & M). exact M.
Qed.
Lemma star_lit_ev it r tm cs : wfi u it -> literal_item it -> (forall c, In c cs -> PMt c) -> PSt (TNode (Some it) r tm cs).
Proof.
  intros W Lt HC s b. remember (length s) as n eqn:Ln. assert (Lm : length s <= n) by lia. clear Ln. revert s Lm.
  assert (NS : is_star it = false) by (destruct it; easy). assert (IL : is_lit it = true) by (destruct it; easy). assert (O : one_item it) by now apply literal_one.
  induction n as [n IH] using lt_wf_ind. intros s Lm K. apply ev_step. 
  set (t := TNode (Some it) r tm cs) in *.
  assert (G : ev (fun f => if (zlen s <? item_min it)%Z then Ok out_none else
     match item_find it s with
     | (None, _, _) => Ok out_none
     | (Some off, Some n, FindDone) => match after_found (Some n) (skipn off s) with None => Panic | Some sub =>
         oseq (if null sub && null cs && match tm with Some _ => true | None => false end then Ok (emit tm) else oall (fun c => t_match f c sub) cs)
              (let '(_, n) := decode_rune (skipn off s) in if Nat.eqb n 0 then Ok out_none else t_match_star f t (skipn n (skipn off s)) b) end
     | (Some _, _, _) => Panic
     end) (rep (matched_star t (symbols s)))).
  { destruct (zlen s <? item_min it)%Z eqn:Z0.
    { apply ev_ok, rep_none. intros x H. apply matched_after_lit in H as (pre & w1 & w2 & E & D & _); auto. apply (short_no it s pre w1 w2); auto. lia. }
    pose proof (item_find_lit u it s W Lt K) as M. destruct (item_find it s) as [[[off|] [m|]] fl]; try easy.
    2,3: apply ev_ok, rep_none; intros x H; apply matched_after_lit in H as (pre & w1 & w2 & E & D & _); auto; exact (M _ _ _ E D).
    destruct M as (-> & pre & w & y & E & D & -> & -> & Min).
    destruct (len_concat_symbols _ _ _ E) as (_ & Exy & Le & _). set (s1 := skipn (length (concat pre)) s) in *.
    destruct (len_concat_symbols _ _ _ Exy) as (_ & Ey & Le1 & _). rewrite (after_found_ok (length (concat w)) s1) by lia. set (s2 := skipn (length (concat w)) s1) in *.
    assert (K1 : okstr u s1) by (eapply okstr_suffix; [exact K|]; rewrite Exy; exact E).
    assert (K2 : okstr u s2) by (eapply okstr_suffix; [exact K1|]; rewrite Ey; exact Exy).
    assert (L1 : length s1 <= length s) by (unfold s1; rewrite skipn_length; lia).
    eapply ev_rep; [apply ev_seq with (P := Hs tm cs y)|].
    - destruct (null s2) eqn:N2; [apply null_symbols in N2|].
      + rewrite Ey in N2. destruct cs as [|c cs]; cbn [andb null].
        * destruct tm as [y0|].
          -- apply ev_ok. eapply rep_ext; [|apply rep_emit]. intro x. unfold Hs. split; [intro; left; auto|]. intros [[? _]|(c & p & [] & _)]. auto.
          -- apply ev_ok, rep_none. intros x [[? _]|(c & p & [] & _)]. discriminate.
        * eapply ev_rep; [apply (ev_all (c :: cs) (fun f c => t_match f c s2) (fun c => matched c (symbols s2))); intros d J; now apply HC|].
          intro x. rewrite Ey. unfold Hs, matched. split.
          -- intros (d & J & p & Kp & Dp). right. exists d, p. auto.
          -- intros [(_ & ? & _)|(d & p & J & Kp & Dp)]; [discriminate|]. exists d. split; auto. exists p. auto.
      + cbn [andb]. eapply ev_rep; [apply (ev_all cs (fun f c => t_match f c s2) (fun c => matched c (symbols s2))); intros d J; now apply HC|].
        intro x. rewrite Ey. unfold Hs, matched. split.
        -- intros (d & J & p & Kp & Dp). right. exists d, p. auto.
        -- intros [(_ & _ & ->)|(d & p & J & Kp & Dp)]; [apply null_symbols in Ey; congruence|]. exists d. split; auto. exists p. auto.
    - apply (shift_ev t s1 b); auto. intros h z Ez Kz. apply (IH (length z)); auto.
      pose proof (concat_symbols s1) as C1. rewrite Ez in C1. cbn [concat] in C1. rewrite concat_symbols in C1.
      assert (h <> []) by (eapply (symbols_nonempty s1); rewrite Ez; now left). apply (f_equal (@length ascii)) in C1. rewrite app_length in C1. destruct h; [easy|]. cbn [length] in C1. lia.
    - intro x. unfold t. rewrite matched_after_lit by auto. rewrite Exy. split.
      + intros [H|(h & w0 & Eh & H)]; [exists pre, w, y; auto|]. apply matched_after_lit in H as (p & w1 & w2 & -> & D1 & H); auto.
        exists (pre ++ h :: p), w1, w2. rewrite E, Eh, <- app_assoc. auto.
      + intros (p & w1 & w2 & E2 & D1 & H). pose proof (Min p w1 w2 E2 D1) as LL. rewrite E in E2.
        destruct (app_suffix _ _ _ _ E2 LL) as (z & -> & Ez). destruct z as [|h z].
        * left. cbn in Ez. apply app_len_inj in Ez as [<- <-]; auto. rewrite (den_cnt _ _ O D), (den_cnt _ _ O D1); auto.
        * right. rewrite Ez. exists h, (z ++ w1 ++ w2). split; auto. apply matched_after_lit; auto. exists z, w1, w2. auto. }
  subst t. cbn [t_match_star]. clear - G Lt. destruct it as [tx|bx|rx|nx|nx|rs|lx|vx mn mx|vx mn mx]; try (exfalso; exact Lt); cbn [item_find] in *.
  - destruct (index_of s tx); exact G.
  - destruct (index_byte s bx); exact G.
  - destruct (index_rune s rx); exact G.
  - destruct (rr_index rs s) as [[[? ?] ?]|]; exact G.
Qed.
Lemma star_items_ev it0 r tm cs it its : (forall c, In c cs -> PMt c) -> wfi u it -> literal_item it -> Forall (wfi u) its -> Forall one_item its ->
  forall s, okstr u s -> ev (fun f => t_star_items f (TNode it0 r tm cs) s (it :: its))
    (rep (fun x => exists pre w1 w2, symbols s = pre ++ w1 ++ w2 /\ dens (it :: its) w1 /\ Hx tm cs w2 x)).
Proof.
  intros HC W Lt Ws Os s. remember (length s) as n eqn:Ln. assert (Lm : length s <= n) by lia. clear Ln. revert s Lm.
  assert (O : one_item it) by now apply literal_one.
  induction n as [n IH] using lt_wf_ind. intros s Lm K. apply ev_step.
  set (t := TNode it0 r tm cs) in *. set (P := fun w x => exists pre w1 w2 : list str, w = pre ++ w1 ++ w2 /\ dens (it :: its) w1 /\ Hx tm cs w2 x) in *.
  change (ev (fun f => t_star_items (S f) t s (it :: its)) (rep (P (symbols s)))).
  assert (G : ev (fun f => if (zlen s <? item_min it)%Z then Ok out_none else
     match item_find it s with
     | (None, _, _) => Ok out_none
     | (Some off, Some n, FindDone) => match after_found (Some n) (skipn off s) with None => Panic | Some sub =>
         oseq (t_items f t sub its)
              (let '(_, n) := decode_rune (skipn off s) in if Nat.eqb n 0 then Ok out_none else t_star_items f t (skipn n (skipn off s)) (it :: its)) end
     | (Some _, _, _) => Panic
     end) (rep (P (symbols s)))).
  { destruct (zlen s <? item_min it)%Z eqn:Z0.
    { apply ev_ok, rep_none. intros x (pre & w1 & w2 & E & (v1 & v2 & -> & D1 & _) & _). rewrite <- app_assoc in E. apply (short_no it s pre v1 (v2 ++ w2)); auto. lia. }
    pose proof (item_find_lit u it s W Lt K) as M. destruct (item_find it s) as [[[off|] [m|]] fl]; try easy.
    2,3: apply ev_ok, rep_none; intros x (pre & w1 & w2 & E & (v1 & v2 & -> & D1 & _) & _); rewrite <- app_assoc in E; exact (M _ _ _ E D1).
    destruct M as (-> & pre & w & y & E & D & -> & -> & Min).
    destruct (len_concat_symbols _ _ _ E) as (_ & Exy & Le & _). set (s1 := skipn (length (concat pre)) s) in *.
    destruct (len_concat_symbols _ _ _ Exy) as (_ & Ey & Le1 & _). rewrite (after_found_ok (length (concat w)) s1) by lia. set (s2 := skipn (length (concat w)) s1) in *.
    assert (K1 : okstr u s1) by (eapply okstr_suffix; [exact K|]; rewrite Exy; exact E).
    assert (K2 : okstr u s2) by (eapply okstr_suffix; [exact K1|]; rewrite Ey; exact Exy).
    assert (L1 : length s1 <= length s) by (unfold s1; rewrite skipn_length; lia).
    eapply ev_rep; [apply ev_seq with (P := fun x => exists w1 w2, y = w1 ++ w2 /\ dens its w1 /\ Hx tm cs w2 x) (Q := fun x => exists h w, symbols s1 = h :: w /\ P w x)|].
    - rewrite <- Ey. apply (items_ev it0 r tm cs HC its s2); auto.
    - pose proof (decode_head s1) as Dh. destruct (decode_rune s1) as [c k]. cbn [snd] in Dh. destruct k as [|k]; cbn [Nat.eqb].
      + apply ev_ok, rep_none. rewrite Dh. intros x (h & w' & Eh & _). discriminate.
      + destruct Dh as (h & z & Es & -> & Ez & _). assert (Kz : okstr u z) by (eapply (okstr_suffix u s1 z [h]); auto).
        eapply ev_rep; [apply (IH (length z)); auto|].
        * pose proof (concat_symbols s1) as C1. rewrite Ez in C1. cbn [concat] in C1. rewrite concat_symbols in C1.
          assert (h <> []) by (eapply (symbols_nonempty s1); rewrite Ez; now left). apply (f_equal (@length ascii)) in C1. rewrite app_length in C1. destruct h; [easy|]. cbn [length] in C1. lia.
        * intro x. rewrite Ez. split; [intro M; exists h, (symbols z); auto|]. intros (h' & w' & [= _ <-] & M). exact M.
    - intro x. rewrite Exy. split.
      + intros [(w1 & w2 & -> & D1 & H)|(h & w0 & Eh & (p & w1 & w2 & -> & D1 & H))].
        * exists pre, (w ++ w1), w2. rewrite E, <- app_assoc. repeat split; auto. exists w, w1. auto.
        * exists (pre ++ h :: p), w1, w2. rewrite E, Eh, <- app_assoc. auto.
      + intros (p & w1 & w2 & E2 & (v1 & v2 & -> & D1 & D2) & H). rewrite <- app_assoc in E2. pose proof (Min p v1 (v2 ++ w2) E2 D1) as LL. rewrite E in E2.
        destruct (app_suffix _ _ _ _ E2 LL) as (z & -> & Ez). destruct z as [|h z].
        * left. cbn in Ez. apply app_len_inj in Ez as [<- ->]; [exists v2, w2; auto|]. rewrite (den_cnt _ _ O D), (den_cnt _ _ O D1); auto.
        * right. rewrite Ez. exists h, (z ++ v1 ++ v2 ++ w2). split; auto. exists z, (v1 ++ v2), w2. rewrite <- app_assoc. repeat split; auto. exists v1, v2. auto. }
  subst t. cbn [t_star_items]. clear - G Lt. destruct it as [tx|bx|rx|nx|nx|rs|lx|vx mn mx|vx mn mx]; try (exfalso; exact Lt); cbn [item_find] in *.
  - destruct (index_of s tx); exact G.
  - destruct (index_byte s bx); exact G.
  - destruct (index_rune s rx); exact G.
  - destruct (rr_index rs s) as [[[? ?] ?]|]; exact G.
Qed.
Lemma star_group_ev vals mn mx r tm cs : wfi u (IGroup vals mn mx) -> lit_group vals -> (forall c, In c cs -> PMt c) -> PSt (TNode (Some (IGroup vals mn mx)) r tm cs).
Proof.
  intros W L HC s b K. apply ev_step. cbn [t_match_star].
  destruct (zlen s <? item_min (IGroup vals mn mx))%Z eqn:Z0.
  { apply ev_ok, rep_none. intros x H. apply matched_after_other in H as (pre & w1 & w2 & E & D & _); auto. apply (short_no (IGroup vals mn mx) s pre w1 w2); auto. lia. }
  cbn [item_find skipn]. pose proof (lit_group_min u vals mn mx W L) as Nz. unfold group_optional. replace (mn =? 0)%Z with false by lia.
  destruct W as (_ & _ & Wv).
  assert (Wf : forall v, In v vals -> wfi u v).
  { clear - Wv. intros v J. induction vals as [|a vals IH]; [easy|]. destruct Wv as (_ & W & Wr). destruct J as [<-|J]; auto. }
  eapply ev_rep; [apply ev_seq with (P := fun _ => False)|].
  - apply ev_ok, rep_none. tauto.
  - apply ev_all with (P := fun v x => exists pre w1 w2, symbols s = pre ++ w1 ++ w2 /\ dens (val_items v) w1 /\ Hx tm cs w2 x). intros v J.
    destruct (L v J) as (i & its & E & Lt & _ & Os). pose proof (wfi_val u v (Wf v J)) as F. rewrite E in *. inversion F; subst. now apply star_items_ev.
  - intro x. rewrite matched_after_other by auto. split.
    + intros [[]|(v & J & pre & w1 & w2 & E & D & H)]. exists pre, w1, w2. repeat split; auto. apply den_group. exists v. split; auto. now apply den_val_items.
    + intros (pre & w1 & w2 & E & D & H). right. apply den_group in D as (v & J & D). exists v. split; auto. exists pre, w1, w2. repeat split; auto. now apply den_val_items.
Qed.
Lemma starred_kept c p x : okt AfterStarList c -> kept false c p x -> exists k p', p = IStar k :: p'.
Proof.
  intros O K. inversion O as [? it st' r tm cs W S _ C]; subst. assert (E : exists k, it = IStar k) by (inversion S; subst; try easy; eauto).
  destruct E as [k ->]. exists k. inversion K; subst; eauto.
Qed.
Section ListLoop.
Variables (it0 : option item) (r : bool) (tm : option term) (cs : list tree).
Hypothesis HC : forall c, In c cs -> PMt c.
Hypothesis HO : forall c, In c cs -> okt AfterStarList c.
Lemma Hx_absorb w x : Hx tm cs w x -> (tm = Some x /\ w = []) \/ forall z, Hx tm cs (z ++ w) x.
Proof.
  intros [H|(c & p & J & K & D)]; [now left|right]. intro z. right. exists c, p. repeat split; auto.
  destruct (starred_kept c p x (HO c J) K) as (k & p' & ->). now apply dens_star_absorb.
Qed.
Definition hereF (f : nat) (s : str) : res out := oseq (emit_if (null s) tm) (oall (fun c => t_match f c s) cs).
Definition go_list (f : nat) (s : str) := fix go (vs : list str) (offset : option nat) (o : out) : res (out * option nat) :=
  match vs with
  | [] => Ok (o, offset)
  | v :: vs' =>
      match find_val s v with
      | None => go vs' offset o
      | Some k =>
          let offset' := match offset with
                         | None => Some k
                         | Some p => if p <? k then Some k else Some p
                         end in
          bind (hereF f (skipn (k + length v) s)) (fun o' => go vs' offset' (out_app o o'))
      end
  end.
Lemma go_list_ev s : okstr u s -> forall vals off0 o0, Forall clean vals ->
  ev (fun f => go_list f s vals off0 o0) (fun '(o, off) =>
    rep (fun x => In x (fst o0) \/ exists v k, In v vals /\ find_val s v = Some k /\ Hx tm cs (symbols (skipn (k + length v) s)) x) o /\
    (forall v k, In v vals -> find_val s v = Some k -> exists m, off = Some m /\ k <= m) /\
    (off = off0 \/ exists v m, In v vals /\ off = Some m /\ find_val s v = Some m) /\
    (forall p, off0 = Some p -> exists m, off = Some m /\ p <= m)).
Proof.
  intro K. induction vals as [|v vs IH]; intros off0 o0 Cv; cbn [go_list].
  - apply ev_ok. split; [|split; [|split]]; auto.
    + intro x. split; auto. intros [H|(v & k & [] & _)]. exact H.
    + intros v k [].
    + intros p ->. exists p. auto.
  - inversion Cv as [|? ? Cv1 Cvs]; subst. pose proof (find_text_spec s v Cv1) as Fv. destruct (find_val s v) as [o|] eqn:Ei; unfold find_val in Ei; rewrite Ei in Fv.
    + destruct Fv as (pre & y & E & Eo & Min).
      destruct (len_concat_symbols _ _ _ E) as (_ & Exy & Le & _). destruct (len_concat_symbols _ _ _ Exy) as (_ & Ey & Le1 & _).
      rewrite concat_symbols, skipn_plus, <- Eo in Ey.
      cbv zeta. set (off1 := match off0 with None => _ | Some p => _ end).
      assert (O1 : exists m1, off1 = Some m1 /\ o <= m1 /\ (off1 = off0 \/ m1 = o) /\ forall p, off0 = Some p -> p <= m1).
      { unfold off1. destruct off0 as [p|]; [destruct (p <? o) eqn:Lp|].
        - exists o. repeat split; auto. intros p0 [= <-]. lia.
        - exists p. repeat split; auto; [lia|]. intros p0 [= <-]. lia.
        - exists o. repeat split; auto. discriminate. }
      destruct O1 as (m1 & E1 & G1 & G2 & G3).
      eapply (ev_bind (fun f => hereF f (skipn (o + length v) s)) (fun f o' => go_list f s vs off1 (out_app o0 o'))).
      { apply (here_ev tm cs); auto. eapply (okstr_suffix u s _ (pre ++ symbols v)); auto. rewrite Ey, <- app_assoc. exact E. }
      intros o' Ho'. eapply ev_weak; [apply (IH off1 (out_app o0 o') Cvs)|]. intros [o2 off] (R & H1 & H2 & H3). destruct (H3 m1 E1) as (m & Em & Lm).
      split; [|split; [|split]].
      * intro x. rewrite (R x). cbn [fst out_app]. rewrite in_app_iff, (Ho' x). split.
        -- intros [[H|H]|(v' & k & J & Fk & H)]; [now left|right; exists v, o; repeat split; auto; now left|right; exists v', k; repeat split; auto; now right].
        -- intros [H|(v' & k & [<-|J] & Fk & H)]; [auto| |right; exists v', k; auto]. left. right. unfold find_val in Fk. rewrite Ei in Fk. injection Fk as <-. exact H.
      * intros v' k [<-|J] Fk; [|now apply (H1 v')]. unfold find_val in Fk. rewrite Ei in Fk. injection Fk as <-. exists m. split; auto. lia.
      * destruct H2 as [H2|(v' & m' & J & X)].
        -- destruct G2 as [G2|G2]; [left; congruence|]. right. exists v, m1. split; [now left|]. rewrite H2. split; auto. unfold find_val. congruence.
        -- right. exists v', m'. split; auto. now right.
      * intros p Ep. exists m. split; auto. apply G3 in Ep. lia.
    + eapply ev_weak; [apply (IH off0 o0 Cvs)|]. intros [o2 off] (R & H1 & H2 & H3). split; [|split; [|split]]; auto.
      * intro x. rewrite (R x). split; (intros [H|(v' & k & J & Fk & H)]; [now left|right; exists v', k; repeat split; auto]); [now right|].
        destruct J as [<-|J]; auto. unfold find_val in Fk. congruence.
      * intros v' k [<-|J] Fk; [unfold find_val in Fk; congruence|now apply (H1 v')].
      * destruct H2 as [H2|(v' & m' & J & X)]; auto. right. exists v', m'. split; auto. now right.
Qed.
Definition in_list_at (vals : list str) (w : list str) (x : term) : Prop := exists v pre y, In v vals /\ w = pre ++ symbols v ++ y /\ Hx tm cs y x.
Lemma star_list_loop_ev l : Forall clean (sl_vals l) -> Forall (fun v => v <> []) (sl_vals l) -> forall n s, length s <= n -> okstr u s ->
  ev (fun f => t_match_star_list f (TNode it0 r tm cs) l s) (fun '(o, s1) => rep (in_list_at (sl_vals l) (symbols s)) o /\ exists pre, symbols s = pre ++ symbols s1).
Proof.
  intros Cv Nv. induction n as [n IH] using lt_wf_ind. intros s Ln K. apply ev_step. cbn [t_match_star_list].
  apply (ev_bind (fun f => go_list f s (sl_vals l) None out_none) (fun f '(o, offset) =>
      match offset with
      | None => Ok (o, s)
      | Some k =>
          let s := skipn k s in
          let '(_, n) := decode_rune s in
          if Nat.eqb n 0 then Ok (o, s)
          else bind (t_match_star_list f (TNode it0 r tm cs) l (skipn n s)) (fun '(o', s') => Ok (out_app o o', s'))
      end) _ _ (go_list_ev s K (sl_vals l) None out_none Cv)).
  intros [o off] (R & H1 & H2 & _).
  assert (R' : rep (fun x => exists v k, In v (sl_vals l) /\ find_val s v = Some k /\ Hx tm cs (symbols (skipn (k + length v) s)) x) o).
  { eapply rep_ext; [|exact R]. intro x. cbn. tauto. }
  clear R. rename R' into R. rewrite Forall_forall in Cv, Nv.
  assert (FS : forall v k, In v (sl_vals l) -> find_val s v = Some k -> exists pre : list str, k = length (concat pre) /\ symbols s = pre ++ symbols v ++ symbols (skipn (k + length v) s) /\
     forall pre' y', symbols s = pre' ++ symbols v ++ y' -> length pre <= length pre').
  { intros v k J Fk. pose proof (find_text_spec s v (Cv _ J)) as Fv. unfold find_val in Fk. rewrite Fk in Fv. destruct Fv as (pre & y & E & -> & Min).
    destruct (len_concat_symbols _ _ _ E) as (_ & Exy & Le & _). destruct (len_concat_symbols _ _ _ Exy) as (_ & Ey & Le1 & _).
    rewrite concat_symbols, skipn_plus in Ey. exists pre. rewrite Ey. auto. }
  assert (FN : forall v pre y, In v (sl_vals l) -> find_val s v = None -> symbols s <> pre ++ symbols v ++ y).
  { intros v pre y J Fk. pose proof (find_text_spec s v (Cv _ J)) as Fv. unfold find_val in Fk. rewrite Fk in Fv. apply Fv. }
  destruct off as [m|].
  - destruct H2 as [H2|(vm & m' & Jm & [= <-] & Fm)]; [discriminate|].
    destruct (FS vm m Jm Fm) as (prem & Em1 & Em & Minm). set (ym := symbols (skipn (m + length vm) s)) in *.
    destruct (len_concat_symbols _ _ _ Em) as (_ & Exy & Le & _). rewrite <- Em1 in Exy. cbv zeta. set (s1 := skipn m s) in *.
    assert (K1 : okstr u s1) by (eapply okstr_suffix; [exact K|]; rewrite Exy; exact Em).
    assert (L1 : length s1 <= length s) by (unfold s1; rewrite skipn_length; lia).
    pose proof (decode_head s1) as D. destruct (decode_rune s1) as [c k]. cbn [snd] in D. destruct k as [|k]; cbn [Nat.eqb].
    { exfalso. rewrite D, symbols_nil in Exy. symmetry in Exy. apply app_eq_nil in Exy as [Exy _]. apply symbols_eq_nil in Exy. now apply (Nv vm). }
    destruct D as (h & y0 & Es & Et & Ey & Lt). rewrite Et.
    eapply ev_bind; [apply (IH (length y0)); [lia|auto|eapply (okstr_suffix u s1 y0 [h]); auto]|].
    intros [o' s'] (R2 & pre2 & E2). apply ev_ok. split.
    + eapply rep_ext; [|apply rep_app; [exact R|exact R2]]. intro x. split.
      * intros [(v & k0 & J & Fk & H)|(v & pre & y & J & E & H)].
        -- destruct (FS v k0 J Fk) as (pv & _ & Ev & _). exists v, pv, (symbols (skipn (k0 + length v) s)). auto.
        -- exists v, (prem ++ h :: pre), y. repeat split; auto. rewrite Em, <- Exy, Ey, E, <- app_assoc. reflexivity.
      * intros (v & pre & y & J & E & H).
        destruct (le_lt_dec (length pre) (length prem)) as [Lp|Lp].
        2:{ right. rewrite Em in E. destruct (app_suffix _ _ _ _ E) as (z & -> & Ez); [lia|]. rewrite app_length in Lp. destruct z as [|h' z]; [cbn in Lp; lia|].
            exists v, z, y. repeat split; auto. rewrite Exy in Ey. rewrite Ez in Ey. cbn in Ey. now injection Ey. }
        left. destruct (find_val s v) as [k0|] eqn:Fk; [|exfalso; now apply (FN v pre y)].
        exists v, k0. split; auto. split; auto. destruct (FS v k0 J Fk) as (pv & Epv & Ev & Minv). set (yv := symbols (skipn (k0 + length v) s)) in *.
        pose proof (Minv pre y E) as Lv.
        destruct (Nat.eq_dec (length pv) (length pre)) as [G|G].
        { rewrite Ev in E. apply app_len_inj in E as [_ E]; auto. apply app_inv_head in E. now rewrite E. }
        apply Hx_absorb in H as [[Ht Hy]|H].
        -- exfalso. subst y. rewrite app_nil_r in E. rewrite Em in E. symmetry in E.
           destruct (app_suffix _ _ _ _ E Lp) as (z & Ez & Ezv). rewrite Ezv in Ev.
           pose proof (Minm (pv ++ z) (ym ++ yv)) as G2. rewrite Ev in G2. rewrite <- !app_assoc in G2. specialize (G2 eq_refl).
           rewrite Ez, !app_length in G2. lia.
        -- rewrite Ev in E. rewrite !app_assoc in E. destruct (app_suffix _ _ _ _ E) as (z & _ & ->); [rewrite !app_length; lia|]. apply H.
    + exists (prem ++ h :: pre2). rewrite Em, <- Exy, Ey, E2, <- app_assoc. reflexivity.
  - apply ev_ok. split; [|exists []; auto]. eapply rep_ext; [|exact R]. intro x. split.
    + intros (v & k & J & Fk & _). destruct (H1 v k J Fk) as (m & ? & _). discriminate.
    + intros (v & pre & y & J & E & H). exfalso. destruct (find_val s v) as [k0|] eqn:Fk; [|now apply (FN v pre y)].
      destruct (H1 v k0 J Fk) as (m & ? & _). discriminate.
Qed.
End ListLoop.
Lemma star_list_ev l r tm cs : wfi u (IList l) -> sl_min l <> 0%Z -> (forall c, In c cs -> PMt c) -> (forall c, In c cs -> okt AfterStarList c) -> PSt (TNode (Some (IList l)) r tm cs).
Proof.
  intros W Nz HC HO s b. remember (length s) as n eqn:Ln. assert (Lm : length s <= n) by lia. clear Ln. revert s Lm.
  induction n as [n IH] using lt_wf_ind. intros s Lm K. apply ev_step. cbn [t_match_star].
  set (t := TNode (Some (IList l)) r tm cs) in *.
  destruct (zlen s <? item_min (IList l))%Z eqn:Z0.
  { apply ev_ok, rep_none. intros x H. apply matched_after_list in H as (pre & w1 & w2 & E & D & _); auto. apply (short_no (IList l) s pre w1 w2); auto. lia. }
  destruct W as (Cv & _ & _ & _ & Nv). cbn [item_find skipn]. unfold sl_optional. replace (sl_min l =? 0)%Z with false by lia. cbn [andb].
  eapply ev_rep; [apply ev_seq with (P := fun x => False)|].
  - apply ev_ok, rep_none. tauto.
  - eapply ev_bind; [apply (star_list_loop_ev (Some (IList l)) r tm cs HC HO l Cv Nv (length s) s); auto|].
    intros [o s1] (R & pre & E1). fold t.
    assert (E2 : exists s2 p2, skipn (snd (decode_rune s1)) s1 = s2 /\ symbols s1 = p2 ++ symbols s2).
    { pose proof (decode_head s1) as D. destruct (snd (decode_rune s1)) as [|k]; [exists s1, []; auto|]. destruct D as (h & y & _ & Et & Ey & _). exists y, [h]. auto. }
    destruct E2 as (s2 & p2 & E2 & E3). destruct (decode_rune s1) as [c k]. cbn [snd] in E2. rewrite E2.
    assert (K2 : okstr u s2) by (eapply (okstr_suffix u s s2 (pre ++ p2)); auto; rewrite E1, E3, app_assoc; reflexivity).
    assert (L2 : length s2 <= length s).
    { pose proof (concat_symbols s) as C1. rewrite E1, E3, !concat_app, concat_symbols in C1. rewrite <- C1. rewrite !app_length. lia. }
    eapply ev_weak; [apply ev_seq with (P := in_list_at tm cs (sl_vals l) (symbols s)) (Q := fun x => exists h w, symbols s2 = h :: w /\ matched_star t w x)|].
    + apply ev_ok. exact R.
    + apply (shift_ev t s2 b); auto. intros h z Ez Kz. apply (IH (length z)); auto.
      pose proof (concat_symbols s2) as C1. rewrite Ez in C1. cbn [concat] in C1. rewrite concat_symbols in C1.
      assert (h <> []) by (eapply (symbols_nonempty s2); rewrite Ez; now left). apply (f_equal (@length ascii)) in C1. rewrite app_length in C1. destruct h; [easy|]. cbn [length] in C1. lia.
    + intros o2. apply (rep_ext _ (fun x => in_list_at tm cs (sl_vals l) (symbols s) x)). intro x. split; auto. intros [H|(h & w & Eh & H)]; auto.
      apply (matched_star_mono t (pre ++ p2 ++ [h])) in H. rewrite <- !app_assoc in H. cbn [app] in H. rewrite <- Eh, <- E3, <- E1 in H.
      apply matched_after_list in H as (q & w1 & w2 & E & [[Zz _]|(v & J & ->)] & Hh); [easy|]. exists v, q, w2. auto.
  - intro x. unfold t. rewrite matched_after_list. cbn [den]. split.
    + intros [[]|(v & q & y & J & E & H)]. exists q, (symbols v), y. repeat split; auto. right. exists v. auto.
    + intros (q & w1 & w2 & E & [[Zz _]|(v & J & ->)] & H); [easy|]. right. exists v, q, w2. auto.
Qed.

Theorem tree_ev st t : okt st t -> (st <> AfterStar -> PMt t) /\ (st = AfterStar -> PSt t).
Proof.
  intro O. induction O as [st it st' r tm cs W S _ C IH].
  assert (CM : st' <> AfterStar -> forall c, In c cs -> PMt c) by (intros N c J; now apply IH).
  inversion S as [? ? Lt Ns|? |? k Ns|l|l Nz|vals mn mx Og|vals mn mx Lg]; subst.
  - split; intros N.
    + apply match_one_ev; auto; [now apply literal_one|]. apply CM. discriminate.
    + apply star_lit_ev; auto. apply CM. discriminate.
  - split; [intros _|discriminate]. apply match_one_ev; [exact W|exact Logic.I|apply CM; discriminate].
  - split; [intros _|intro; contradiction]. apply match_star_ev. intros c J. now apply IH.
  - split; [intros _|discriminate]. apply match_list_ev; auto. apply CM. discriminate.
  - split; [intro; contradiction|intros _]. apply star_list_ev; auto. apply CM. discriminate.
  - split; [intros _|discriminate]. apply match_group_ev; auto. apply CM. discriminate.
  - split; [intro; contradiction|intros _]. apply star_group_ev; auto. apply CM. discriminate.
Qed.
End Tree.
