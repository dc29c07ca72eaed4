(** Generic lemmas about registries kept as two maps. *)
From Verif Require Import Model.Tree Spec.RegistrySpec Proof.SortP.
From Coq Require Import Lia ZifyBool ZifyN ZifyNat.

Lemma lookup_assign {K V} (eqb : K -> K -> bool) (ok : forall a b, reflect (a = b) (eqb a b)) k v k' (m : list (K * V)) :
  lookup eqb k' (assign eqb k v m) = if eqb k' k then Some v else lookup eqb k' m.
Proof.
  induction m as [|[a b] m IH]; cbn.
  - now destruct (eqb k' k).
  - destruct (ok k a) as [<-|N]; cbn.
    + now destruct (eqb k' k).
    + destruct (ok k' a) as [->|N2]; [destruct (ok a k); congruence|]. exact IH.
Qed.
Lemma zeqb_spec (a b : Z) : reflect (a = b) (Z.eqb a b).
Proof. apply iff_reflect. symmetry. apply Z.eqb_eq. Qed.
Lemma neqb_spec (a b : nat) : reflect (a = b) (Nat.eqb a b).
Proof. apply iff_reflect. symmetry. apply Nat.eqb_eq. Qed.

Definition maps_ok (E : list entry) (gs : list (str * Z)) (ix : list (Z * str)) : Prop :=
  distinct E /\ (forall k n, lookup str_eqb k gs = Some n <-> known E k n) /\ (forall i q, lookup Z.eqb i ix = Some q <-> used E i q).
Lemma maps_none E gs ix k : maps_ok E gs ix -> (lookup str_eqb k gs = None <-> forall n, ~ known E k n).
Proof.
  intros (_ & M & _). destruct (lookup str_eqb k gs) as [n|] eqn:L; split; auto; try discriminate.
  - intro N. apply M in L. now apply N in L.
  - intros _ n H. apply M in H. congruence.
Qed.
Lemma maps_unused E gs ix i : maps_ok E gs ix -> (lookup Z.eqb i ix = None <-> forall q, ~ used E i q).
Proof.
  intros (_ & _ & M). destruct (lookup Z.eqb i ix) as [n|] eqn:L; split; auto; try discriminate.
  - intro N. apply M in L. now apply N in L.
  - intros _ n H. apply M in H. congruence.
Qed.
Lemma maps_nil : maps_ok [] [] [].
Proof. split; [split; [constructor|intros e e' n []]|]. split; intros; (split; [discriminate|intros (e & [] & _)]). Qed.
Lemma known_snoc E e k n : known (E ++ [e]) k n <-> known E k n \/ ((e_text e = k \/ e_node e = k) /\ e_index e = n).
Proof.
  split.
  - intros (x & I & H). apply in_app_or in I as [I|[<-|[]]]; [left; exists x; auto|now right].
  - intros [(x & I & H)|H]; [exists x; split; [apply in_or_app; now left|auto]|exists e; split; [apply in_or_app; right; now left|auto]].
Qed.
Lemma used_snoc E e k n : used (E ++ [e]) k n <-> used E k n \/ (e_index e = k /\ e_node e = n).
Proof.
  split.
  - intros (x & I & H). apply in_app_or in I as [I|[<-|[]]]; [left; exists x; auto|now right].
  - intros [(x & I & H)|H]; [exists x; split; [apply in_or_app; now left|auto]|exists e; split; [apply in_or_app; right; now left|auto]].
Qed.
Lemma maps_snoc E gs ix text q i gs' ix' : maps_ok E gs ix -> (forall n, ~ known E text n) -> (forall n, ~ known E q n) -> (forall x, ~ used E i x) ->
  (forall k, lookup str_eqb k gs' = if str_eqb k text || str_eqb k q then Some i else lookup str_eqb k gs) ->
  (forall k, lookup Z.eqb k ix' = if Z.eqb k i then Some q else lookup Z.eqb k ix) -> maps_ok (E ++ [mkEntry text q i]) gs' ix'.
Proof.
  intros ([D1 D2] & M1 & M2) N1 N2 N3 G I. split; [split|split].
  - rewrite map_app. apply NoDup_rev in D1. rewrite <- (rev_involutive (map e_index E ++ _)). apply NoDup_rev. rewrite rev_app_distr. cbn. constructor; auto.
    rewrite <- in_rev. intro X. apply in_map_iff in X as (e & <- & Ie). apply (N3 (e_node e)). exists e. auto.
  - intros e e' name Ie Ie' H H'. apply in_app_or in Ie as [Ie|[<-|[]]]; apply in_app_or in Ie' as [Ie'|[<-|[]]]; auto.
    + eapply D2; eauto.
    + exfalso. cbn in H'. destruct H' as [<-|<-]; [apply (N1 (e_index e))|apply (N2 (e_index e))]; exists e; auto.
    + exfalso. cbn in H. destruct H as [<-|<-]; [apply (N1 (e_index e'))|apply (N2 (e_index e'))]; exists e'; auto.
  - intros k n. rewrite G, known_snoc. cbn. destruct (str_eqb_spec k text) as [->|A]; [|destruct (str_eqb_spec k q) as [->|A']]; cbn.
    + split; [intro H; injection H as <-; auto|]. intros [H|[_ ->]]; auto. now apply N1 in H.
    + split; [intro H; injection H as <-; auto|]. intros [H|[_ ->]]; auto. now apply N2 in H.
    + rewrite M1. split; auto. intros [H|[[H|H] _]]; congruence || auto.
  - intros k n. rewrite I, used_snoc. cbn. destruct (zeqb_spec k i) as [->|A].
    + split; [intro H; injection H as <-; auto|]. intros [H|[_ ->]]; auto. now apply N3 in H.
    + rewrite M2. split; auto. intros [H|[H _]]; congruence || auto.
Qed.

Section Runs.
  Context {T : Type} (add : T -> str -> Z -> res (T * add_res)) (canon : str -> res str).
  Context (inv : list entry -> T -> Prop).
  Hypothesis step : forall E t text i, inv E t -> exists t' r new, add t text i = Ok (t', r) /\ registers canon E text i new r /\
    inv (match new with Some e => E ++ [e] | None => E end) t' /\ (new = None -> t' = t).

  Lemma run_snoc calls : forall t text i, run_adds add t (calls ++ [(text, i)]) =
    match run_adds add t calls with
    | Ok (t', rs) => match add t' text i with Ok (t'', r) => Ok (t'', rs ++ [r]) | Err e => Err e | Panic => Panic | Fuel => Fuel end
    | Err e => Err e | Panic => Panic | Fuel => Fuel
    end.
  Proof.
    induction calls as [|[tx j] calls IH]; intros t text i; cbn.
    - now destruct (add t text i) as [[t' r]|e| |].
    - destruct (add t tx j) as [[t' r]|e| |]; auto. rewrite IH. destruct (run_adds add t' calls) as [[t2 rs]|e| |]; auto.
      now destruct (add t2 text i) as [[t3 r3]|e| |].
  Qed.
  Lemma run_history t0 : inv [] t0 -> forall calls, exists t rs E, run_adds add t0 calls = Ok (t, rs) /\ history canon calls rs E /\ inv E t.
  Proof.
    intro I0. induction calls as [|[text i] calls (t & rs & E & R & H & I)] using rev_ind.
    - exists t0, [], []. split; [reflexivity|]. split; [constructor|auto].
    - destruct (step E t text i I) as (t' & r & new & A & Rg & I' & _). do 3 eexists. rewrite run_snoc, R, A. split; [reflexivity|]. split; [econstructor; eauto|auto].
  Qed.
End Runs.
(** The entries a history leaves are those of its accepted calls. *)
Fixpoint entries_of (calls : list (str * Z)) (rs : list add_res) : list entry :=
  match calls, rs with
  | (text, i) :: calls, (q, _, e) :: rs =>
      match e with None => if null text then [] else [mkEntry text q i] | Some _ => [] end ++ entries_of calls rs
  | _, _ => []
  end.
Lemma entries_app a b : forall r s, length a = length r -> entries_of (a ++ b) (r ++ s) = entries_of a r ++ entries_of b s.
Proof.
  induction a as [|[text i] a IH]; intros [|[[q n] e] r] s L; try discriminate; auto. cbn [app entries_of]. rewrite IH by (injection L as L; exact L). now rewrite app_assoc.
Qed.
Lemma history_entries canon calls rs E : history canon calls rs E -> E = entries_of calls rs /\ length calls = length rs.
Proof.
  induction 1 as [|calls rs E text i new r H [IH L] R]; [auto|]. split; [|rewrite !app_length; cbn; lia]. rewrite entries_app by auto. rewrite <- IH.
  inversion R; subst; cbn [entries_of app]; rewrite ?app_nil_r; auto. destruct text; [easy|reflexivity].
Qed.

(** ** A history has one outcome *)
Lemma distinct_index E e e' : distinct E -> In e E -> In e' E -> e_index e = e_index e' -> e = e'.
Proof.
  intros [D _]. revert D. induction E as [|a E IH]; [easy|]. cbn. intros D I I' H. inversion D as [|? ? N1 N2]; subst.
  destruct I as [->|I], I' as [->|I']; auto; exfalso; apply N1; apply in_map_iff; eauto.
Qed.
Lemma known_fun E k n n' : distinct E -> known E k n -> known E k n' -> n = n'.
Proof. intros [_ D] (e & I & H & <-) (e' & I' & H' & <-). now rewrite (D e e' k). Qed.
Lemma used_fun E i q q' : distinct E -> used E i q -> used E i q' -> q = q'.
Proof. intros D (e & I & H & <-) (e' & I' & H' & <-). rewrite (distinct_index E e e'); congruence. Qed.
Lemma distinct_nil : distinct [].
Proof. split; [constructor|intros e e' n []]. Qed.
Lemma distinct_snoc E text q i : distinct E -> (forall n, ~ known E text n) -> (forall n, ~ known E q n) -> (forall x, ~ used E i x) -> distinct (E ++ [mkEntry text q i]).
Proof.
  intros [D1 D2] N1 N2 N3. split.
  - rewrite map_app. apply NoDup_rev in D1. rewrite <- (rev_involutive (map e_index E ++ _)). apply NoDup_rev. rewrite rev_app_distr. cbn. constructor; auto.
    rewrite <- in_rev. intro X. apply in_map_iff in X as (e & <- & Ie). apply (N3 (e_node e)). exists e. auto.
  - intros e e' name Ie Ie' H H'. apply in_app_or in Ie as [Ie|[<-|[]]]; apply in_app_or in Ie' as [Ie'|[<-|[]]]; auto.
    + eapply D2; eauto.
    + exfalso. cbn in H'. destruct H' as [<-|<-]; [apply (N1 (e_index e))|apply (N2 (e_index e))]; exists e; auto.
    + exfalso. cbn in H. destruct H as [<-|<-]; [apply (N1 (e_index e'))|apply (N2 (e_index e'))]; exists e'; auto.
Qed.
Lemma history_distinct canon calls rs E : history canon calls rs E -> distinct E.
Proof. induction 1 as [|calls rs E text i new r H IH R]; [apply distinct_nil|]. destruct R; auto. now apply distinct_snoc. Qed.
Lemma registers_fun canon E text i new r new' r' : distinct E -> registers canon E text i new r -> registers canon E text i new' r' -> new = new' /\ r = r'.
Proof.
  intros D R R'. destruct R; inversion R'; subst; try congruence; try lia; auto;
    try (match goal with H : forall n, ~ known _ ?t n, K : known _ ?t _ |- _ => now apply H in K end);
    try (match goal with H : forall q, ~ used _ ?t q, K : used _ ?t _ |- _ => now apply H in K end);
    try (match goal with H : known _ ?t _, K : known _ ?t _ |- _ => now rewrite (known_fun _ _ _ _ D H K) end);
    try (match goal with H : used _ ?t _, K : used _ ?t _ |- _ => now rewrite (used_fun _ _ _ _ D H K) end).
  all: repeat match goal with H : ?f ?t = Ok ?a, K : ?f ?t = Ok ?b |- _ => assert (a = b) by congruence; subst; clear K end;
    repeat match goal with H : ?f ?t = Err ?a, K : ?f ?t = Err ?b |- _ => assert (a = b) by congruence; subst; clear K end; auto;
    try (match goal with H : forall n, ~ known _ ?t n, K : known _ ?t _ |- _ => now apply H in K end);
    try (match goal with H : known _ ?t _, K : known _ ?t _ |- _ => now rewrite (known_fun _ _ _ _ D H K) end).
Qed.
Lemma history_fun canon calls rs E : history canon calls rs E -> forall rs' E', history canon calls rs' E' -> rs = rs' /\ E = E'.
Proof.
  induction 1 as [|calls rs E text i new r H IH R]; intros rs' E' H'.
  - inversion H' as [|c0 ? ? ? ? ? ? ? ? Ec]; auto. now destruct c0.
  - inversion H' as [Ec|c0 rs0 E0 t0 i0 new0 r0 H0 R0 Ec]; [now destruct calls|]. apply app_inj_tail in Ec as [-> Ec]. injection Ec as -> ->.
    destruct (IH _ _ H0) as [-> ->]. destruct (registers_fun _ _ _ _ _ _ _ _ (history_distinct _ _ _ _ H) R R0) as [-> ->]. auto.
Qed.

(** The same for calls that satisfy a condition. *)
Section RunsIf.
  Context {T : Type} (add : T -> str -> Z -> res (T * add_res)) (canon : str -> res str).
  Context (inv : list entry -> T -> Prop) (good : str -> Prop).
  Hypothesis step : forall E t text i, good text -> inv E t -> exists t' r new, add t text i = Ok (t', r) /\ registers canon E text i new r /\
    inv (match new with Some e => E ++ [e] | None => E end) t' /\ (new = None -> t' = t).
  Lemma run_history_if t0 : inv [] t0 -> forall calls, (forall c, In c calls -> good (fst c)) -> exists t rs E, run_adds add t0 calls = Ok (t, rs) /\ history canon calls rs E /\ inv E t.
  Proof.
    intro I0. induction calls as [|[text i] calls IH] using rev_ind; intro G.
    - exists t0, [], []. split; [reflexivity|]. split; [constructor|auto].
    - destruct IH as (t & rs & E & R & H & I); [intros c Ic; apply G, in_or_app; now left|].
      destruct (step E t text i) as (t' & r & new & A & Rg & I' & _); auto; [apply (G (text, i)), in_or_app; right; now left|]. do 3 eexists. rewrite run_snoc, R, A. split; [reflexivity|]. split; [econstructor; eauto|auto].
  Qed.
End RunsIf.
