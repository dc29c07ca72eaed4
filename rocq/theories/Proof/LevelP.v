(** Trees of tag queries: sorted levels, shared conditions. *)
From Coq Require Import Lia ZifyBool ZifyN ZifyNat Permutation.
From Verif Require Import Model.GTags Spec.TagSpec Spec.RegistrySpec Spec.TagTreeSpec Spec.LevelSpec.
From Verif Require Import Proof.SortP Proof.TagsP Proof.KeyP Proof.TermsP Proof.CondP Proof.RoundP Proof.TotalP Proof.RegistryP Proof.TagTreeP.

(** ** The search for a slot *)
Definition kat (slots : list tslot) (i : Z) : str := at_ (map ts_key slots) i.
Lemma kat_nth slots i : (0 <= i < Z.of_nat (length slots))%Z -> ts_key (nth (Z.to_nat i) slots slot0) = kat slots i.
Proof. intro H. unfold kat, at_. change (@nil ascii) with (ts_key slot0). now rewrite map_nth. Qed.
Lemma lt_named a b : a <> name_key -> b <> name_key -> str_ltb a b = true -> key_lt a b.
Proof. intros A C L. right. split; auto. Qed.
Lemma foa_sorted slots key : keys_sorted (map ts_key slots) -> key <> name_key ->
  forall fuel low high, (0 <= low <= high)%Z -> (high < Z.of_nat (length slots))%Z -> (high - low < Z.of_nat fuel)%Z ->
  (forall i, (0 <= i < low)%Z -> key_lt (kat slots i) key) -> (forall i, (high < i < Z.of_nat (length slots))%Z -> key_lt key (kat slots i)) ->
  (forall i, (low <= i < Z.of_nat (length slots))%Z -> kat slots i <> name_key) ->
  match foa_loop fuel slots key low high with
  | inl mid => (0 <= mid < Z.of_nat (length slots))%Z /\ kat slots mid = key
  | inr h => (0 <= h <= Z.of_nat (length slots))%Z /\ (forall i, (0 <= i < h)%Z -> key_lt (kat slots i) key) /\ (forall i, (h <= i < Z.of_nat (length slots))%Z -> key_lt key (kat slots i))
  end.
Proof.
  intros S K. assert (Srt : forall i j, (0 <= i < j)%Z -> (j < Z.of_nat (length slots))%Z -> key_lt (kat slots i) (kat slots j)) by (intros; apply sorted_at; auto; now rewrite map_length).
  induction fuel as [|f IH]; intros low high L H F Lo Hi Nn; [lia|]. cbn [foa_loop]. destruct (Z.leb_spec low high) as [LH|]; [|lia]. cbv zeta.
  assert (M : (low <= Z.quot (low + high) 2 <= high)%Z) by (rewrite Z.quot_div_nonneg by lia; Z.div_mod_to_equations; lia).
  assert (M2 : (low < high -> Z.quot (low + high) 2 < high)%Z) by (rewrite Z.quot_div_nonneg by lia; Z.div_mod_to_equations; lia).
  set (mid := Z.quot (low + high) 2) in *. rewrite kat_nth by lia. destruct (str_eqb_spec key (kat slots mid)) as [E|N]; [split; [lia|auto]|].
  assert (Nm := Nn mid ltac:(lia)). destruct (str_ltb key (kat slots mid)) eqn:Lt.
  - assert (KL : key_lt key (kat slots mid)) by now apply lt_named.
    assert (Up : forall i, (mid <= i < Z.of_nat (length slots))%Z -> key_lt key (kat slots i)).
    { intros i Hi'. destruct (Z.eq_dec i mid) as [->|]; auto. eapply key_lt_trans; [exact KL|]. apply Srt; lia. }
    destruct (Z.eqb_spec low mid) as [El|].
    + split; [lia|]. split; auto. intros i Hi'. apply Up. lia.
    + apply IH; auto; try lia. intros i Hi'. apply Up. lia.
  - assert (KL : key_lt (kat slots mid) key).
    { apply lt_named; auto. destruct (str_ltb (kat slots mid) key) eqn:E; auto. exfalso. apply N. now apply str_ltb_total. }
    assert (Dn : forall i, (0 <= i <= mid)%Z -> key_lt (kat slots i) key).
    { intros i Hi'. destruct (Z.eq_dec i mid) as [->|]; auto. eapply key_lt_trans; [|exact KL]. apply Srt; lia. }
    destruct (Z.eqb_spec low high) as [El|].
    + split; [lia|]. split; [intros; apply Dn; lia|]. intros i Hi'. apply Hi. lia.
    + apply IH; auto; try lia; [intros i Hi'; apply Dn; lia|intros i Hi'; apply Nn; lia].
Qed.
Lemma nth_firstn' {A} (d : A) : forall n j l, j < n -> nth j (firstn n l) d = nth j l d.
Proof. induction n as [|n IH]; intros [|j] [|x l] H; cbn; auto; try lia. apply IH. lia. Qed.
Lemma nth_skipn' {A} (d : A) : forall n j l, nth j (skipn n l) d = nth (n + j) l d.
Proof. induction n as [|n IH]; intros j [|x l]; cbn; auto; try (now destruct j). Qed.
Lemma sorted_mid a k b : keys_sorted (a ++ b) -> (forall x, In x a -> key_lt x k) -> (forall x, In x b -> key_lt k x) -> keys_sorted (a ++ k :: b).
Proof.
  induction a as [|x a IH]; cbn; intros S A C; [auto|]. destruct S as [S1 S2]. split; [|apply IH; auto].
  intros y I. apply in_app_or in I as [I|[<-|I]]; auto; [|]; try (apply S1, in_or_app; auto).
Qed.
Lemma slot_sorted slots key : key <> [] -> keys_sorted (map ts_key slots) -> (key = name_key \/ map ts_key slots <> [name_key]) ->
  exists a nm m b, find_or_append slots key = (length a, a ++ TSlot key nm m :: b) /\
  (slots = a ++ TSlot key nm m :: b \/ (nm = [] /\ m = [] /\ slots = a ++ b)) /\ keys_sorted (map ts_key (a ++ TSlot key nm m :: b)).
Proof.
  intros K S Nn. unfold find_or_append. destruct key as [|c0 key0] eqn:Ek; [easy|]. rewrite <- Ek in *. replace (null key) with false by now rewrite Ek. clear Ek c0 key0 K.
  assert (Ex : forall mid, (0 <= mid < Z.of_nat (length slots))%Z -> ts_key (nth (Z.to_nat mid) slots slot0) = key -> 
    exists a nm m b, (Z.to_nat mid, slots) = (length a, a ++ TSlot key nm m :: b) /\ (slots = a ++ TSlot key nm m :: b \/ (nm = [] /\ m = [] /\ slots = a ++ b)) /\ keys_sorted (map ts_key (a ++ TSlot key nm m :: b))).
  { intros mid H E. destruct (nth_split slots slot0 (n := Z.to_nat mid)) as (a & b & Es & La); [lia|]. destruct (nth (Z.to_nat mid) slots slot0) as [k nm m]. cbn in E. subst k.
    exists a, nm, m, b. rewrite La. split; [now rewrite <- Es|]. split; [now left|]. now rewrite <- Es. }
  assert (New : forall a b, slots = a ++ b -> (forall s, In s a -> key_lt (ts_key s) key) -> (forall s, In s b -> key_lt key (ts_key s)) ->
    exists a' nm m b', (length a, a ++ TSlot key [] [] :: b) = (length a', a' ++ TSlot key nm m :: b') /\ (slots = a' ++ TSlot key nm m :: b' \/ (nm = [] /\ m = [] /\ slots = a' ++ b')) /\ keys_sorted (map ts_key (a' ++ TSlot key nm m :: b'))).
  { intros a b E A C. exists a, [], [], b. split; auto. split; auto. rewrite map_app. cbn [map ts_key]. apply sorted_mid.
    - rewrite <- map_app, <- E. exact S.
    - intros x I. apply in_map_iff in I as (s & <- & I). auto.
    - intros x I. apply in_map_iff in I as (s & <- & I). auto. }
  destruct slots as [|s0 sr] eqn:Es; [apply (New [] []); auto; intros s []|]. rewrite <- Es in *. replace (null slots) with false by now rewrite Es.
  assert (L0 : (0 < length slots)%nat) by (rewrite Es; cbn; lia).
  assert (Fst : ts_key (nth 0 slots slot0) = kat slots 0) by (apply (kat_nth slots 0); lia).
  assert (Srt : forall i j, (0 <= i < j)%Z -> (j < Z.of_nat (length slots))%Z -> key_lt (kat slots i) (kat slots j)) by (intros; apply sorted_at; auto; now rewrite map_length).
  assert (Inn : forall s, In s slots -> exists i, (0 <= i < Z.of_nat (length slots))%Z /\ ts_key s = kat slots i).
  { intros s I. apply (In_nth _ _ slot0) in I as (j & Lj & <-). exists (Z.of_nat j). split; [lia|]. rewrite <- kat_nth by lia. now rewrite Nat2Z.id. }
  assert (Rest : forall i, (0 < i < Z.of_nat (length slots))%Z -> kat slots i <> name_key).
  { intros i Hi E. destruct (Srt 0%Z i ltac:(lia) ltac:(lia)) as [[_ X]|[X _]]; auto. }
  destruct (str_eqb_spec key name_key) as [->|N].
  - destruct (str_eqb_spec (ts_key (nth 0 slots slot0)) name_key) as [E|E]; [apply (Ex 0%Z); [lia|auto]|]. apply (New [] slots); auto; [intros s []|]. intros s I. left. split; [reflexivity|].
    destruct (Inn s I) as (i & Hi & ->). destruct (Z.eq_dec i 0) as [->|]; [rewrite Fst in E; exact E|]. apply Rest. lia.
  - cbv zeta. destruct Nn as [?|Nn]; [easy|]. rewrite Fst.
    assert (Ge : kat slots 0 = name_key -> (1 < length slots)%nat).
    { intro E. destruct slots as [|s [|]]; cbn in L0 |- *; try lia. exfalso. apply Nn. cbn. unfold kat, at_ in E. cbn in E. now rewrite E. }
    assert (H := foa_sorted slots key S N (Datatypes.S (length slots)) (if str_eqb (kat slots 0) name_key then 1%Z else 0%Z) (Z.of_nat (length slots) - 1)%Z).
    assert (H1 : match foa_loop (Datatypes.S (length slots)) slots key (if str_eqb (kat slots 0) name_key then 1%Z else 0%Z) (Z.of_nat (length slots) - 1)%Z with
      | inl mid => (0 <= mid < Z.of_nat (length slots))%Z /\ kat slots mid = key
      | inr h => (0 <= h <= Z.of_nat (length slots))%Z /\ (forall i, (0 <= i < h)%Z -> key_lt (kat slots i) key) /\ (forall i, (h <= i < Z.of_nat (length slots))%Z -> key_lt key (kat slots i))
      end).
    { destruct (str_eqb_spec (kat slots 0) name_key) as [E|E].
      - specialize (Ge E). apply H; try lia; [intros i Hi; replace i with 0%Z by lia; left; split; auto|intros i Hi; apply Rest; lia].
      - apply H; try lia. intros i Hi. destruct (Z.eq_dec i 0) as [->|]; [exact E|]. apply Rest. lia. }
    destruct (foa_loop _ _ _ _ _) as [mid|h].
    + apply Ex; [tauto|]. rewrite kat_nth; tauto.
    + destruct H1 as (Hh & A & C). destruct (Z.eqb_spec h (Z.of_nat (length slots))) as [->|].
      * rewrite Nat2Z.id. apply (New slots []); [now rewrite app_nil_r| |intros s []]. intros s I. destruct (Inn s I) as (i & Hi & ->). apply A. lia.
      * destruct (Z.leb_spec h 0).
        -- apply (New [] slots); auto; [intros s []|]. intros s I. destruct (Inn s I) as (i & Hi & ->). apply C. lia.
        -- assert (La : length (firstn (Z.to_nat h) slots) = Z.to_nat h) by (rewrite firstn_length; lia).
           assert (N' := New (firstn (Z.to_nat h) slots) (skipn (Z.to_nat h) slots) ltac:(now rewrite firstn_skipn)). rewrite La in N'. apply N'.
           ++ intros s I. apply (In_nth _ _ slot0) in I as (j & Lj & <-). rewrite La in Lj. rewrite nth_firstn' by lia. rewrite <- (Nat2Z.id j), kat_nth by lia. apply A. lia.
           ++ intros s I. apply (In_nth _ _ slot0) in I as (j & Lj & <-). rewrite skipn_length in Lj. rewrite nth_skipn'. rewrite <- (Nat2Z.id (Z.to_nat h + j)), kat_nth by lia. apply C. lia.
Qed.

(** ** Trees without repetitions *)
Definition conds (l : list titem) : list (option (str * tagop * str)) := map (fun c => option_map condition (ti_term c)) l.
Inductive di : bool -> titem -> Prop :=
| di_i top tm e slots : keys_sorted (map ts_key slots) -> (top = false -> ~ In name_key (map ts_key slots)) -> Forall ds slots -> di top (TItem tm e slots)
with ds : tslot -> Prop :=
| ds_s k nm m : nm ++ m <> [] -> NoDup (conds nm) -> NoDup (conds m) -> Forall dc nm -> Forall dc m -> ds (TSlot k nm m)
with dc : titem -> Prop :=
| dc_c t e slots : whole (TItem (Some t) e slots) <> [] -> di false (TItem (Some t) e slots) -> dc (TItem (Some t) e slots).
Definition alike (j : nat) (q terms : list tterm) : Prop := sim (firstn (S j) q) (firstn (S j) terms).
Definition trace (terms : list tterm) (L : list pathed) (p : list tterm) : Prop :=
  forall j t, nth_error p j = Some t ->
    (exists q y, In (q, y) L /\ alike j q terms /\ nth_error q j = Some t) \/ (nth_error terms j = Some t /\ forall q y, In (q, y) L -> ~ alike j q terms).
Lemma alike_head j q t rest : alike j q (t :: rest) -> exists u q', q = u :: q' /\ condition u = condition t.
Proof. unfold alike, sim. destruct q as [|u q]; cbn [firstn map]; [discriminate|]. intro H. exists u, q. split; [reflexivity|]. unfold condition in *. congruence. Qed.
Lemma alike_S j u q t rest : alike (S j) (u :: q) (t :: rest) <-> condition u = condition t /\ alike j q rest.
Proof.
  unfold alike, sim. change (firstn (S (S j)) (u :: q)) with (u :: firstn (S j) q). change (firstn (S (S j)) (t :: rest)) with (t :: firstn (S j) rest). cbn [map]. split.
  - intro H. split; [unfold condition in *; congruence|]. now apply (f_equal (@tl _)) in H.
  - intros [-> ->]. reflexivity.
Qed.
Lemma alike_0 u q t rest : condition u = condition t -> alike 0 (u :: q) (t :: rest).
Proof. intro H. unfold alike, sim. cbn. now rewrite H. Qed.
Lemma trace_more t rest L L' p : trace (t :: rest) L p -> (forall q y, In (q, y) L -> In (q, y) L') ->
  (forall u q y, In (u :: q, y) L' -> condition u = condition t -> In (u :: q, y) L) -> trace (t :: rest) L' p.
Proof.
  intros H A C j t' Hn. destruct (H j t' Hn) as [(q & y & I & X)|[X N]]; [left; eauto|]. right. split; auto. intros q y I Al. destruct (alike_head _ _ _ _ Al) as (u & q' & -> & E). eapply N; eauto.
Qed.
Lemma branch_head q y l : In (q, y) (branches flat l) -> exists u q' c, q = u :: q' /\ In c l /\ ti_term c = Some u /\ In (q', y) (whole c).
Proof.
  induction l as [|c l IH]; cbn [branches]; [easy|]. intro I. apply in_app_or in I as [I|I].
  - unfold branch in I. destruct (ti_term c) as [u|] eqn:E; [|easy]. apply under_in in I as (q' & -> & I). exists u, q', c. split; auto. split; [now left|]. auto.
  - destruct (IH I) as (u & q' & c' & -> & Ic & H). exists u, q', c'. split; auto. split; [now right|auto].
Qed.
Lemma branch_in q' y u c l : In c l -> ti_term c = Some u -> In (q', y) (whole c) -> In (u :: q', y) (branches flat l).
Proof.
  induction l as [|c' l IH]; cbn [branches]; [easy|]. intros [->|I] E W; apply in_or_app; [left|right; auto]. unfold branch. rewrite E. apply under_in. eauto.
Qed.
Lemma cond_in c u l : In c l -> ti_term c = Some u -> In (Some (condition u)) (conds l).
Proof. intros I E. apply in_map_iff. exists c. split; auto. now rewrite E. Qed.
Lemma slot_head T q y s : wf_slot T s -> In (q, y) (flat_slot s) -> exists u q', q = u :: q' /\ tt_key u = ts_key s.
Proof.
  intros W I. destruct s as [k nm m]. inversion W as [? ? ? _ Wn Wm]; subst. rewrite flat_slot_eq in I. apply in_app_or in I as [I|I]; apply branch_head in I as (u & q' & c & -> & Ic & E & _); exists u, q'; (split; [reflexivity|]).
  - rewrite Forall_forall in Wm. specialize (Wm c Ic). inversion Wm; subst. cbn in E. injection E as ->. reflexivity.
  - rewrite Forall_forall in Wn. specialize (Wn c Ic). inversion Wn; subst. cbn in E. injection E as ->. reflexivity.
Qed.
Lemma slots_in q y l : In (q, y) (flat_slots l) <-> exists s, In s l /\ In (q, y) (flat_slot s).
Proof.
  induction l as [|s l IH]; cbn [flat_slots]; [split; [easy|now intros (s & [] & _)]|]. rewrite in_app_iff, IH. split.
  - intros [I|(s' & I & J)]; [exists s; split; [now left|auto]|exists s'; split; [now right|auto]].
  - intros (s' & [->|I] & J); eauto.
Qed.

Lemma insert_first (T : tterm -> Prop) x : forall terms top item item', Forall (fun t => T t /\ tt_key t <> []) terms -> wf_item T item -> di top item ->
  (forall t, In t (tl terms) -> tt_key t <> name_key) ->
  match terms with t :: _ => if top : bool then tt_key t = name_key \/ level item <> [name_key] else tt_key t <> name_key | [] => True end ->
  ti_parse terms (Some x) item = Ok item' ->
  di top item' /\ ti_term item' = ti_term item /\ (exists p, In (p, x) (whole item')) /\
  forall p y, In (p, y) (whole item') -> In (p, y) (whole item) \/ (y = x /\ trace terms (whole item) p).
Proof.
  induction terms as [|t rest IH]; intros top [tm e slots] item' F W D Nt Hd Pa.
  - rewrite parse_nil in Pa. injection Pa as <-. split; [inversion D; subst; now constructor|]. split; [reflexivity|]. split; [exists []; now left|].
    intros p y I. unfold whole in *. cbn [ti_end own] in *. rewrite flat_item in *. destruct I as [I|I]; [|left; apply in_or_app; now right]. injection I as <- <-. right. split; auto. intros j t Hn. now destruct j.
  - inversion F as [|? ? [Tt Kt] F']; subst. rewrite parse_cons in Pa. inversion D as [? ? ? ? Sk Nk Fs]; subst.
    assert (Gd : tt_key t = name_key \/ map ts_key slots <> [name_key]).
    { destruct top; [exact Hd|]. right. intro E. apply Nk; auto. rewrite E. now left. }
    destruct (slot_sorted slots (tt_key t) Kt Sk Gd) as (a & nm & m & b & Fo & Sl & Sk'). rewrite Fo, nth_error_mid in Pa. inversion W as [? ? ? Ws]; subst.
    assert (Wa : Forall (wf_slot T) (a ++ TSlot (tt_key t) nm m :: b)).
    { destruct Sl as [<-|(-> & -> & ->)]; auto. apply Forall_app in Ws as [Wa Wb]. apply Forall_app. split; auto. constructor; auto. constructor; auto. }
    assert (Da : Forall ds a /\ Forall ds b).
    { destruct Sl as [->|(-> & -> & ->)]; apply Forall_app in Fs as [X Y]; [inversion Y|]; auto. }
    assert (Dn : NoDup (conds nm) /\ NoDup (conds m) /\ Forall dc nm /\ Forall dc m).
    { destruct Sl as [->|(-> & -> & ->)]; [|repeat split; constructor]. apply Forall_app in Fs as [_ Y]. inversion Y as [|? ? Z _]; subst. inversion Z; subst. auto. }
    assert (Fa : flat_slots slots = flat_slots a ++ (branches flat m ++ branches flat nm) ++ flat_slots b).
    { destruct Sl as [-> |(-> & -> & ->)]; rewrite slots_app; cbn [flat_slots]; [now rewrite flat_slot_eq|reflexivity]. }
    assert (Wm := Wa). apply Forall_app in Wm as [Wl Wr]. inversion Wr as [|? ? Wk Wb]; subst. inversion Wk as [? ? ? _ Wnm Wmm]; subst.
    assert (Ins : forall l l' neg, Forall (wf_child T (tt_key t) neg) l -> NoDup (conds l) -> Forall dc l -> ins t (ti_parse rest (Some x)) l = Ok l' ->
      NoDup (conds l') /\ Forall dc l' /\ l' <> [] /\ (forall c, In c (conds l') -> In c (conds l) \/ c = Some (condition t)) /\ (exists p, In (p, x) (branches flat l')) /\
      forall p y, In (p, y) (branches flat l') -> In (p, y) (branches flat l) \/ (y = x /\ trace (t :: rest) (branches flat l) p)).
    { induction l as [|c l IHl]; intros l' neg Wc Nd Dc Pi; cbn [ins] in Pi.
      - destruct (ti_parse rest (Some x) (TItem (Some t) None [])) as [c'| | |] eqn:Pc; try discriminate. cbn [bind] in Pi. injection Pi as <-.
        destruct (IH false (TItem (Some t) None []) c' F') as (Dc' & Tc' & (p0 & I0) & Tr); auto.
        { constructor. constructor. }
        { constructor; [exact I|intros _ []|constructor]. }
        { intros u I. apply Nt. cbn. destruct rest; [easy|now right]. }
        { destruct rest as [|u rest]; [exact I|]. apply Nt. now left. }
        destruct c' as [tc ec sc]. cbn in Tc'. subst tc. split; [repeat constructor; easy|]. split; [constructor; [|constructor]; constructor; [intro Z; rewrite Z in I0; easy|exact Dc']|]. split; [discriminate|]. split; [intros c [<-|[]]; now right|].
        split; [exists (t :: p0); eapply branch_in; [now left|reflexivity|exact I0]|]. intros p y I. right. apply branch_head in I as (u & q' & c & -> & [<-|[]] & E & I). cbn in E. injection E as <-.
        destruct (Tr q' y I) as [X|[-> X]]; [easy|]. split; auto. intros j t' Hn. right. destruct j as [|j]; cbn in Hn |- *; [split; auto|]. destruct (X j t' Hn) as [(q & z & [] & _)|[Y _]]. split; auto.
      - inversion Wc as [|? ? Wc1 Wc2]; subst. inversion Wc1 as [? ? u ec sc Tu Ku Nu Wu]; subst. inversion Nd as [|? ? N1 N2]; subst. inversion Dc as [|? ? D1 D2]; subst.
        destruct (same_term t (TItem (Some u) ec sc)) eqn:Sm.
        + apply same_term_iff in Sm. destruct (ti_parse rest (Some x) (TItem (Some u) ec sc)) as [c'| | |] eqn:Pc; try discriminate. cbn [bind] in Pi. injection Pi as <-. inversion D1 as [? ? ? Lv Di]; subst.
          destruct (IH false (TItem (Some u) ec sc) c' F' Wu Di) as (Dc' & Tc' & (p0 & I0) & Tr); auto.
          { intros v I. apply Nt. cbn. destruct rest; [easy|now right]. }
          { destruct rest as [|v rest]; [exact I|]. apply Nt. now left. }
          destruct c' as [tc ec' sc']. cbn in Tc'. subst tc. split; [exact Nd|]. split; [constructor; auto; constructor; [intro Z; rewrite Z in I0; easy|exact Dc']|]. split; [discriminate|]. split; [auto|].
          split; [exists (u :: p0); eapply branch_in; [now left|reflexivity|exact I0]|]. intros p y I. apply branch_head in I as (u' & q' & c & -> & [<-|Ic] & E & I).
          * cbn in E. injection E as <-. destruct (Tr q' y I) as [X|[-> X]].
            -- left. eapply branch_in; [now left|reflexivity|exact X].
            -- right. split; auto. intros j t' Hn. destruct j as [|j]; cbn in Hn.
               ++ injection Hn as <-. left. destruct (whole (TItem (Some u) ec sc)) as [|[q0 y0] w] eqn:Ew; [easy|]. exists (u :: q0), y0. split; [eapply branch_in; [now left|reflexivity|rewrite Ew; now left]|]. split; [now apply alike_0|reflexivity].
               ++ destruct (X j t' Hn) as [(q & z & Iq & Al & Hq)|[Y No]].
                  ** left. exists (u :: q), z. split; [eapply branch_in; [now left|reflexivity|exact Iq]|]. split; [now apply alike_S|exact Hq].
                  ** right. split; [exact Y|]. intros q z Iq Al. apply branch_head in Iq as (v & q'' & c & -> & [<-|Ic] & E & Iq); apply alike_S in Al as [Ec Al].
                     --- cbn in E. injection E as <-. eapply No; eauto.
                     --- apply N1. cbn [ti_term option_map]. rewrite Sm, <- Ec. eapply cond_in; eauto.
          * left. eapply branch_in; [right; exact Ic|exact E|exact I].
        + destruct (ins t (ti_parse rest (Some x)) l) as [l2| | |] eqn:Pl; try discriminate. cbn [bind] in Pi. injection Pi as <-. destruct (IHl l2 _ Wc2 N2 D2 eq_refl) as (Nd' & Dc' & Nn & Cs & (p0 & I0) & Tr).
          assert (Nc : condition u <> condition t) by (intro Z; apply same_term_iff with (e := ec) (slots := sc) in Z; congruence).
          split; [constructor; auto; intro I; apply Cs in I as [I|I]; [now apply N1|cbn in I; congruence]|]. split; [now constructor|]. split; [discriminate|].
          split; [intros c [<-|I]; [left; now left|destruct (Cs c I); [left; now right|auto]]|]. split; [exists p0; cbn [branches]; apply in_or_app; now right|].
          intros p y I. cbn [branches] in I. apply in_app_or in I as [I|I]; [left; cbn [branches]; apply in_or_app; now left|]. destruct (Tr p y I) as [X|[-> X]]; [left; cbn [branches]; apply in_or_app; now right|]. right. split; auto.
          apply (trace_more _ _ _ _ _ X); [intros q z Iq; cbn [branches]; apply in_or_app; now right|]. intros v q z Iq Ev. cbn [branches] in Iq. apply in_app_or in Iq as [Iq|Iq]; auto.
          exfalso. unfold branch in Iq. cbn [ti_term] in Iq. apply under_in in Iq as (q' & Z & _). injection Z as -> _. auto. }
    set (neg := op_negative (tt_op t)) in *. destruct (ins t (ti_parse rest (Some x)) (if neg then nm else m)) as [l'| | |] eqn:Pl; try discriminate. cbn [bind] in Pa. rewrite set_nth_mid in Pa. injection Pa as <-.
    assert (Wx : Forall (wf_child T (tt_key t) neg) (if neg then nm else m)) by (destruct neg; auto).
    destruct Dn as (Dn1 & Dn2 & Dn3 & Dn4). destruct (Ins _ l' neg Wx ltac:(destruct neg; auto) ltac:(destruct neg; auto) Pl) as (Nd' & Dc' & Nn & _ & (p0 & I0) & Tr).
    assert (Wn : Forall (wf_child T (tt_key t) true) nm) by auto.
    assert (Sl' : ds (if neg then TSlot (tt_key t) l' m else TSlot (tt_key t) nm l')).
    { destruct neg; constructor; auto; intro Z; apply app_eq_nil in Z; tauto. }
    assert (Kl : map ts_key (a ++ (if neg then TSlot (tt_key t) l' m else TSlot (tt_key t) nm l') :: b) = map ts_key (a ++ TSlot (tt_key t) nm m :: b)) by (rewrite !map_app; destruct neg; reflexivity).
    split.
    { constructor; [rewrite Kl; exact Sk'| |apply Forall_app; split; [apply Da|constructor; [exact Sl'|apply Da]]].
      intros ->. rewrite Kl, map_app. cbn [map ts_key]. intro I. apply in_app_or in I as [I|[I|I]].
      - apply Nk; auto. destruct Sl as [->|(-> & -> & ->)]; rewrite map_app; apply in_or_app; auto.
      - now apply Hd.
      - apply Nk; auto. destruct Sl as [->|(-> & -> & ->)]; rewrite map_app; apply in_or_app; right; [now right|auto]. }
    split; [reflexivity|].
    assert (Fb : flat_slots (a ++ (if neg then TSlot (tt_key t) l' m else TSlot (tt_key t) nm l') :: b) = flat_slots a ++ ((if neg then branches flat m ++ branches flat l' else branches flat l' ++ branches flat nm)) ++ flat_slots b).
    { rewrite slots_app. cbn [flat_slots]. destruct neg; now rewrite flat_slot_eq. }
    unfold whole. cbn [ti_end]. rewrite !flat_item, Fa, Fb. split.
    { exists p0. apply in_or_app. right. apply in_or_app. right. apply in_or_app. left. destruct neg; apply in_or_app; auto. }
    assert (Up : forall p, trace (t :: rest) (branches flat (if neg then nm else m)) p -> trace (t :: rest) (own e ++ flat_slots a ++ (branches flat m ++ branches flat nm) ++ flat_slots b) p).
    { intros p X. apply (trace_more _ _ _ _ _ X).
      - intros q z Iq. apply in_or_app. right. apply in_or_app. right. apply in_or_app. left. apply in_or_app. destruct neg; auto.
      - intros u q z Iq Ec. assert (Ek : tt_key u = tt_key t) by (injection Ec; auto). assert (Eo : tt_op u = tt_op t) by (injection Ec; auto).
        assert (Kd := sorted_nodup _ Sk'). rewrite map_app in Kd. cbn [map ts_key] in Kd.
        assert (Out : forall s, In s a \/ In s b -> ts_key s <> tt_key t).
        { intros s Is E. apply NoDup_remove_2 in Kd. apply Kd. apply in_or_app. destruct Is as [Is|Is]; [left|right]; apply in_map_iff; eauto. }
        apply in_app_or in Iq as [Iq|Iq]; [destruct e as [y|]; [destruct Iq as [Iq|[]]; discriminate|easy]|].
        apply in_app_or in Iq as [Iq|Iq]; [|apply in_app_or in Iq as [Iq|Iq]; [apply in_app_or in Iq as [Iq|Iq]|]].
        + exfalso. apply slots_in in Iq as (s & Is & Iq). destruct (slot_head T (u :: q) z s) as (u' & q' & Z & Eu); auto; [rewrite Forall_forall in Wl; auto|]. injection Z as <- _. apply (Out s); [now left|congruence].
        + assert (neg = false) as ->; [|exact Iq]. apply branch_head in Iq as (u' & q' & c & Z & Ic & E & _). injection Z as <- _. rewrite Forall_forall in Wmm. specialize (Wmm c Ic). inversion Wmm; subst. cbn in E. injection E as ->. unfold neg. now rewrite <- Eo.
        + assert (neg = true) as ->; [|exact Iq]. apply branch_head in Iq as (u' & q' & c & Z & Ic & E & _). injection Z as <- _. rewrite Forall_forall in Wn. specialize (Wn c Ic). inversion Wn; subst. cbn in E. injection E as ->. unfold neg. now rewrite <- Eo.
        + exfalso. apply slots_in in Iq as (s & Is & Iq). destruct (slot_head T (u :: q) z s) as (u' & q' & Z & Eu); auto; [rewrite Forall_forall in Wb; auto|]. injection Z as <- _. apply (Out s); [now right|congruence]. }
    intros p y I. rewrite !in_app_iff in I. assert (Lf : In (p, y) (own e) \/ In (p, y) (flat_slots a) \/ In (p, y) (branches flat m) \/ In (p, y) (branches flat nm) \/ In (p, y) (flat_slots b) -> In (p, y) (own e ++ flat_slots a ++ (branches flat m ++ branches flat nm) ++ flat_slots b)) by (rewrite !in_app_iff; clear; tauto).
    destruct I as [I|[I|[I|I]]]; [left; apply Lf; auto|left; apply Lf; auto| |left; apply Lf; auto 8].
    assert (I' : In (p, y) (branches flat l') \/ In (p, y) (branches flat m ++ branches flat nm)) by (rewrite in_app_iff; destruct neg; apply in_app_or in I; tauto).
    destruct I' as [I'|I']; [|left; apply Lf; rewrite in_app_iff in I'; clear - I'; tauto]. destruct (Tr p y I') as [X|[-> X]].
    + left. assert (X' : In (p, y) (branches flat m) \/ In (p, y) (branches flat nm)) by (destruct neg; auto). apply Lf. clear - X'. tauto.
    + right. split; [reflexivity|apply Up, X].
Qed.

(** ** The condition that stands for another *)
Lemma stands_cons rx a E ts k u : term_stands_for rx (a :: E) ts k u <->
  (exists us, parse_series rx (e_text a) = Ok us /\ starts_like k ts us /\ nth_error us k = Some u) \/
  ((forall vs, parse_series rx (e_text a) = Ok vs -> ~ starts_like k ts vs) /\ term_stands_for rx E ts k u).
Proof.
  split.
  - intros (E1 & e & E2 & us & Eq & P & S & Hn & No). destruct E1 as [|a' E1]; cbn in Eq; injection Eq as <- ->; [left; eauto|]. right. split; [intros vs Pv; apply (No a); [now left|auto]|].
    exists E1, e, E2, us. repeat (split; [now auto|]). intros e' vs I. apply No. now right.
  - intros [(us & P & S & Hn)|[Na (E1 & e & E2 & us & -> & P & S & Hn & No)]].
    + exists [], a, E, us. repeat (split; [now auto|]). easy.
    + exists (a :: E1), e, E2, us. repeat (split; [now auto|]). intros e' vs [<-|I]; eauto.
Qed.
Lemma stands_fun rx E ts k u u' : term_stands_for rx E ts k u -> term_stands_for rx E ts k u' -> u = u'.
Proof.
  induction E as [|a E IH]; [intros (E1 & e & E2 & us & Eq & _); now destruct E1|]. rewrite !stands_cons.
  intros [(us & P & S & Hn)|[Na H]] [(us' & P' & S' & Hn')|[Na' H']]; auto.
  - assert (us' = us) by congruence. subst. congruence.
  - now apply Na' in P.
  - now apply Na in P'.
Qed.
Lemma stands_more rx E a ts k u : term_stands_for rx E ts k u -> term_stands_for rx (E ++ [a]) ts k u.
Proof. intros (E1 & e & E2 & us & -> & H). exists E1, e, (E2 ++ [a]), us. rewrite <- app_assoc. auto. Qed.
Lemma sim_firstn p q n : sim p q -> sim (firstn n p) (firstn n q).
Proof. unfold sim. intro H. now rewrite <- !firstn_map, H. Qed.
Lemma starts_swap k p q ts : starts_like k p q -> (starts_like k p ts <-> starts_like k q ts).
Proof. unfold starts_like. intros ->. tauto. Qed.
Lemma stands_swap rx E p q k u : starts_like k p q -> term_stands_for rx E p k u -> term_stands_for rx E q k u.
Proof.
  intros S (E1 & e & E2 & us & -> & P & S' & Hn & No). exists E1, e, E2, us. split; auto. split; auto. split; [now apply (starts_swap k p q us S)|]. split; auto.
  intros e' vs I Pv Sv. apply (No e' vs I Pv). now apply (starts_swap k p q vs S).
Qed.
Lemma sim_starts p ts k : sim p ts -> starts_like k p ts.
Proof. apply sim_firstn. Qed.

(** ** The registry *)
Definition once_all (rx : regexps) (E : list entry) : Prop := forall e ts, In e E -> parse_series rx (e_text e) = Ok ts -> once_named ts.
Definition steps_ok (rx : regexps) (E : list entry) (gt : gtags_tree) : Prop :=
  once_all rx E -> names_late rx E -> di true (tg_root gt) /\ forall p y j t, In (p, y) (flat (tg_root gt)) -> nth_error p j = Some t -> term_stands_for rx E p j t.
Lemma late_less rx E e : names_late rx (E ++ [e]) -> names_late rx E.
Proof.
  intros [A|(E1 & e1 & E2 & ts & Eq & P & N & Nn & No)].
  - left. intros e' ts I. apply A. apply in_or_app. now left.
  - destruct (exists_last (l := e1 :: E2) ltac:(discriminate)) as (l & z & El). rewrite El, app_assoc in Eq. apply app_inj_tail in Eq as [-> <-]. destruct l as [|z l].
    + left. rewrite app_nil_r. intros e' us I Pu Nu. rewrite (No e' I) in Pu. congruence.
    + cbn in El. injection El as <- _. right. exists E1, e1, l, ts. auto 8.
Qed.
Lemma series_ordered rx q ts : parse_series rx q = Ok ts -> terms_ordered ts.
Proof.
  unfold parse_series, parse_conditions. destruct (series_by_tag_args q 128) as [l| | |]; try discriminate. cbn [bind]. destruct (parse_all rx l) as [us| | |]; try discriminate. cbn [bind]. intro H. injection H as <-. apply isort_ordered.
Qed.
Lemma tail_unnamed t rest : terms_ordered (t :: rest) -> once_named (t :: rest) -> forall u, In u rest -> tt_key u <> name_key.
Proof.
  intros O N u I E. apply ordered_cons in O as [O _]. specialize (O u I). apply (N [] t rest u eq_refl I). split; [|exact E]. destruct (str_eqb_spec (tt_key t) name_key) as [X|X]; [exact X|]. exfalso. apply O. left. split; [exact E|exact X].
Qed.
Lemma accepted_tag rx gt text i gt' q : text <> [] -> tg_add rx gt text i = Ok (gt', (q, i, None)) -> exists ts, parse_series rx text = Ok ts /\ q = terms_write ts /\
  ((ts = [] /\ tg_root gt' = tg_root gt) \/ (ts <> [] /\ ti_parse ts (Some (q, i)) (tg_root gt) = Ok (tg_root gt'))).
Proof.
  intros Nt. unfold tg_add. replace (null text) with false by now destruct text. destruct (i <? 0)%Z; [discriminate|]. destruct (lookup str_eqb text _); [discriminate|]. destruct (lookup Z.eqb i _); [discriminate|].
  destruct (parse_series rx text) as [ts|e| |]; try discriminate. cbv zeta. destruct (lookup str_eqb _ _); [discriminate|]. intro H. exists ts. split; [reflexivity|]. destruct ts as [|t ts].
  - cbn [bind] in H. injection H as <- <-. split; [reflexivity|]. left. auto.
  - destruct (ti_parse (t :: ts) (Some (terms_write (t :: ts), i)) (tg_root gt)) as [r| | |] eqn:R; [|discriminate H..]. cbn [bind] in H. injection H as <- <-. split; [reflexivity|]. right. split; [discriminate|]. exact R.
Qed.
Lemma root_starts T slots q y : wf_item T (TItem None None slots) -> map ts_key slots = [name_key] -> In (q, y) (flat_slots slots) -> exists u q', q = u :: q' /\ tt_key u = name_key.
Proof.
  intros W E I. inversion W as [? ? ? Ws]; subst. apply slots_in in I as (s & Is & I). rewrite Forall_forall in Ws. destruct (slot_head T q y s (Ws s Is) I) as (u & q' & -> & Ku). exists u, q'. split; auto. rewrite Ku.
  assert (X : In (ts_key s) (map ts_key slots)) by (apply in_map_iff; eauto). rewrite E in X. now destruct X as [<-|[]].
Qed.
Lemma live_root tm e slots top : di top (TItem tm e slots) -> slots <> [] -> exists p y, In (p, y) (flat_slots slots).
Proof.
  intros D N. inversion D as [? ? ? ? _ _ F]; subst. destruct slots as [|[k nm m] slots]; [easy|]. inversion F as [|? ? S _]; subst. inversion S as [? ? ? Ne _ _ Dn Dm]; subst.
  assert (exists c, (In c nm \/ In c m) /\ dc c) as (c & Ic & Dc).
  { destruct nm as [|c nm]; [destruct m as [|c m]; [easy|]|]; exists c; (split; [cbn; auto|]); [now inversion Dm|now inversion Dn]. }
  inversion Dc as [t e' sl Lv _]; subst. destruct (whole (TItem (Some t) e' sl)) as [|[q y] w] eqn:Ew; [easy|]. exists (t :: q), y. cbn [flat_slots]. apply in_or_app. left. rewrite flat_slot_eq. apply in_or_app.
  destruct Ic as [Ic|Ic]; [right|left]; (eapply branch_in; [exact Ic|reflexivity|rewrite Ew; now left]).
Qed.
Lemma steps_step rx E gt text i : named_keys rx text -> tagtree_ok rx E gt /\ steps_ok rx E gt -> exists gt' r new, tg_add rx gt text i = Ok (gt', r) /\ registers (tg_canon rx) E text i new r /\
  (tagtree_ok rx (match new with Some e => E ++ [e] | None => E end) gt' /\ steps_ok rx (match new with Some e => E ++ [e] | None => E end) gt') /\ (new = None -> gt' = gt).
Proof.
  intros NK [T St]. destruct (tg_step rx E gt text i NK T) as (gt' & r & new & A & Rg & T' & K). exists gt', r, new. split; [exact A|]. split; [exact Rg|]. split; [|exact K]. split; [exact T'|].
  destruct new as [e|]; [|rewrite K; auto]. inversion Rg as [| | | | | |q Nt Hi _ Nu _ _ Q1 Q2]; subst. destruct (accepted_tag _ _ _ _ _ _ Nt A) as (ts & P & Eq & Rt). intros On La.
  destruct (St (fun e us I => On e us (in_or_app _ _ _ (or_introl I))) (late_less _ _ _ La)) as [D Sf].
  destruct Rt as [[-> Rt]|[Nts Rt]].
  { rewrite Rt. split; [exact D|]. intros p y j t I Hn. apply stands_more. eauto. }
  pose proof T as (MO & PE & WF & EN & TE & (T1 & T2 & T3)). pose proof T' as (_ & _ & _ & EN' & _ & (T1' & _ & _)).
  assert (Here : In (mkEntry text q i) (E ++ [mkEntry text q i])) by (apply in_or_app; right; now left).
  destruct ts as [|t rest]; [easy|].
  assert (Ht := tail_unnamed t rest (series_ordered _ _ _ P) (On _ _ Here P)).
  destruct (tg_root gt) as [rm re slots] eqn:Er. cbn in EN. subst re.
  assert (Hd : tt_key t = name_key \/ level (TItem rm None slots) <> [name_key]).
  { destruct (str_eqb_spec (tt_key t) name_key) as [X|X]; [now left|]. right. unfold level. cbn [ti_slots]. intro Lv.
    assert (WF' : wf_item (accepted_term rx E) (TItem None None slots)) by (inversion WF; subst; now constructor).
    rewrite flat_item in T1, T2.
    assert (All : forall e us, In e E -> parse_series rx (e_text e) = Ok us -> us <> [] -> named us).
    { intros e us Ie Pe Nu'. destruct (T2 e us Ie Pe Nu') as (p & Ip & S). destruct (root_starts _ _ _ _ WF' Lv Ip) as (u & q' & -> & Ku). destruct us as [|v us]; [easy|]. exists v. split; [now left|].
      unfold sim, condition in S. cbn in S. injection S as S1 _ _ _. change (tt_key v = name_key). congruence. }
    destruct (live_root _ _ _ _ D) as (p0 & y0 & I0); [intro Z; rewrite Z in Lv; discriminate|]. destruct (T1 p0 y0 I0) as (e1 & us1 & Ie1 & Pe1 & Nu1 & _).
    assert (Nn : ~ named (t :: rest)) by (intros (u & [<-|Iu] & Ku); [now apply X|now apply (Ht u Iu)]).
    destruct La as [La|(E1 & e & E2 & us & Eq' & Pe & Nus & Nn' & No)]; [apply Nn; now apply (La _ _ Here P)|].
    assert (Ie : In e (E ++ [mkEntry text q i])) by (rewrite Eq'; apply in_or_app; right; now left). apply in_app_or in Ie as [Ie|[Ie|[]]]; [now apply Nn', (All e)|].
    assert (Ei : In e1 E1).
    { assert (X1 : In e1 (E1 ++ e :: E2)) by (rewrite <- Eq'; apply in_or_app; now left). apply in_app_or in X1 as [X1|[X1|X1]]; auto.
      - exfalso. subst e1. subst e. apply Nu with (q := q). exists (mkEntry text q i). auto.
      - exfalso. destruct (exists_last (l := E2)) as (l & z & El); [intro Z; rewrite Z in X1; easy|]. rewrite El in Eq'. rewrite app_comm_cons, app_assoc in Eq'. apply app_inj_tail in Eq' as [Eq' _].
        assert (Iz : In e E) by (rewrite Eq'; apply in_or_app; right; now left). subst e. apply Nu with (q := q). exists (mkEntry text q i). auto. }
    rewrite (No e1 Ei) in Pe1. congruence. }
  assert (Ft : Forall (fun u => accepted_term rx (E ++ [mkEntry text q i]) u /\ tt_key u <> []) (t :: rest)).
  { apply Forall_forall. intros u Iu. split; [exists (mkEntry text q i), (t :: rest); auto|]. now apply (NK (t :: rest)). }
  assert (Wm : wf_item (accepted_term rx (E ++ [mkEntry text q i])) (TItem rm None slots)).
  { apply (wf_mono (accepted_term rx E)); auto. intros u (e & us & Ie & H). exists e, us. split; auto. apply in_or_app. now left. }
  destruct (insert_first _ _ _ true _ _ Ft Wm D Ht Hd Rt) as (D' & _ & _ & Tr). split; [exact D'|].
  intros p y j u I Hn. assert (Iw : In (p, y) (whole (tg_root gt'))) by (apply in_or_app; now right). destruct (Tr p y Iw) as [Io|[-> X]].
  - apply stands_more. apply (Sf p y); auto.
  - destruct (T1' p _ I) as (e & us & Ie & Pe & Nus & S & Ex). assert (us = t :: rest) as ->.
    { apply in_app_or in Ie as [Ie|[<-|[]]]; [|cbn in Pe; congruence]. exfalso. injection Ex as _ Ex. apply (Nu (e_node e)). exists e. auto. }
    destruct (X j u Hn) as [(q0 & z & Iq & Al & Hq)|[Hq No]].
    + apply stands_more. apply (stands_swap rx E q0).
      * unfold starts_like, alike, sim in *. rewrite Al. symmetry. now apply sim_firstn.
      * apply (Sf q0 z); auto.
    + exists E, (mkEntry text q i), [], (t :: rest). split; [reflexivity|]. split; [exact P|]. split; [now apply sim_starts|]. split; [exact Hq|].
      intros e' vs I' Pv Sv. assert (Nv : vs <> []).
      { intros ->. unfold starts_like in Sv. destruct p; [now destruct j|discriminate]. }
      destruct (T2 e' vs I' Pv Nv) as (p2 & I2 & S2). apply (No p2 (e_node e', e_index e')); [exact I2|]. unfold alike. unfold sim at 1. rewrite (sim_firstn _ _ (Datatypes.S j) S2). rewrite <- (sim_firstn _ _ (Datatypes.S j) S). symmetry. exact Sv.
Qed.
Lemma steps_history rx calls : (forall c, In c calls -> named_keys rx (fst c)) -> exists gt rs E, run_adds (tg_add rx) tg_new calls = Ok (gt, rs) /\ history (tg_canon rx) calls rs E /\ tagtree_ok rx E gt /\ steps_ok rx E gt.
Proof.
  apply (run_history_if (tg_add rx) (tg_canon rx) (fun E gt => tagtree_ok rx E gt /\ steps_ok rx E gt) (named_keys rx)); [apply steps_step|]. split; [apply tagtree_new|].
  intros _ _. split; [constructor; [exact I|easy|constructor]|]. intros p y j t [].
Qed.
Lemma once_ok ts : (length (filter (fun t => str_eqb (tt_key t) name_key) ts) <=? 1)%nat = true -> once_named ts.
Proof.
  intros H a t b u -> I [E1 E2]. apply Nat.leb_le in H. rewrite filter_app, app_length in H. cbn [filter] in H. change (tt_key t = name_key) in E1. rewrite E1, str_eqb_refl in H. cbn [length] in H.
  assert (In u (filter (fun t => str_eqb (tt_key t) name_key) b)) as X by (apply filter_In; split; auto; change (tt_key u = name_key) in E2; now rewrite E2, str_eqb_refl). destruct (filter _ b); [easy|]. cbn in H. lia.
Qed.
