(** The grammars of reordered declarations correspond (C46). *)
From Coq Require Import Permutation.
From Verif Require Import Base Syntax BaseFacts FrontEnd First States Actions Tables Runtime Spec WfGrammar FrontFacts DeclSpec DeclFacts PipeFacts BuildFacts GramFacts LangFacts ActFacts
  FaultSpec LalrFacts CycleFacts Reorder Claims13 OrderSpec OrderFacts IsoFacts AnonFacts.
Open Scope string_scope. Open Scope nat_scope. Open Scope list_scope.

(** ** A correspondence of places *)
Record places {A} (p : A -> bool) (l1 l2 : list A) (R : nat -> nat -> Prop) : Prop := {
  pl_fun : forall i j j', R i j -> R i j' -> j = j';
  pl_inj : forall i i' j, R i j -> R i' j -> i = i';
  pl_same : forall i j, R i j -> exists a, nth_error l1 i = Some a /\ nth_error l2 j = Some a;
  pl_to : forall i, i < List.length l1 -> exists j, R i j;
  pl_from : forall j, j < List.length l2 -> exists i, R i j;
  pl_order : forall i i' j j' a a', R i j -> R i' j' -> nth_error l1 i = Some a -> nth_error l1 i' = Some a' -> p a = true -> p a' = true -> i < i' -> j < j' }.
Definition past (n j : nat) : nat := if j <? n then j else S j.
Lemma past_inj n i j : past n i = past n j -> i = j.
Proof. unfold past. destruct (Nat.ltb_spec i n), (Nat.ltb_spec j n); lia. Qed.
Lemma past_ne n j : past n j <> n.
Proof. unfold past. destruct (Nat.ltb_spec j n); lia. Qed.
Lemma past_nth {A} (x y : list A) a j : nth_error (x ++ a :: y) (past (List.length x) j) = nth_error (x ++ y) j.
Proof.
  unfold past. destruct (Nat.ltb_spec j (List.length x)) as [L|L]; [now rewrite !nth_error_app1|]. rewrite !nth_error_app2 by lia. now replace (S j - List.length x) with (S (j - List.length x)) by lia.
Qed.
Lemma filter_first {A} (p : A -> bool) a m : forall l, filter p l = a :: m -> exists x y, l = x ++ a :: y /\ filter p x = [] /\ filter p y = m.
Proof.
  induction l as [|b l IH]; cbn; [discriminate|]. destruct (p b) eqn:E; intros H.
  - injection H as -> <-. exists [], l. auto.
  - destruct (IH H) as (x & y & -> & E1 & E2). exists (b :: x), y. splits; auto. cbn. now rewrite E.
Qed.
Theorem perm_places {A} (p : A -> bool) : forall l1 l2, Permutation l1 l2 -> filter p l1 = filter p l2 -> exists R, places p l1 l2 R.
Proof.
  induction l1 as [|a l1 IH]; intros l2 HP HF.
  - apply Permutation_nil in HP as ->. exists (fun _ _ => False). constructor; try contradiction; cbn; intros; lia.
  - assert (HS : exists x y, l2 = x ++ a :: y /\ filter p l1 = filter p (x ++ y) /\ (p a = true -> filter p x = [])).
    { cbn in HF. destruct (p a) eqn:E.
      - symmetry in HF. apply filter_first in HF as (x & y & -> & E1 & E2). exists x, y. rewrite filter_app, E1, E2. auto.
      - assert (Hin : In a l2) by (apply (Permutation_in _ HP); now left). apply in_split in Hin as (x & y & ->). exists x, y. splits; auto; [|discriminate]. rewrite HF, !filter_app. cbn. now rewrite E. }
    destruct HS as (x & y & -> & HF' & HX). apply Permutation_cons_app_inv in HP. destruct (IH _ HP HF') as [R PL]. set (n := List.length x).
    exists (fun i j => i = 0 /\ j = n \/ exists i' j', i = S i' /\ R i' j' /\ j = past n j'). constructor.
    + intros i j j' [[-> ->]|(i1 & j1 & -> & R1 & ->)] [[H ->]|(i2 & j2 & H & R2 & ->)]; try discriminate; auto. injection H as ->. f_equal. eapply (pl_fun _ _ _ _ PL); eauto.
    + intros i i' j [[-> ->]|(i1 & j1 & -> & R1 & ->)] [[H E]|(i2 & j2 & -> & R2 & E)]; auto.
      * symmetry in E. now apply past_ne in E.
      * now apply past_ne in E.
      * apply past_inj in E as ->. f_equal. eapply (pl_inj _ _ _ _ PL); eauto.
    + intros i j [[-> ->]|(i1 & j1 & -> & R1 & ->)].
      * exists a. split; auto. unfold n. now rewrite nth_error_app2, Nat.sub_diag by lia.
      * unfold n. rewrite past_nth. cbn [nth_error]. now apply (pl_same _ _ _ _ PL).
    + intros [|i] L; [eauto|]. cbn in L. destruct (pl_to _ _ _ _ PL i) as [j Hj]; [lia|]. exists (past n j). right. eauto.
    + intros j L. rewrite app_length in L. cbn in L. fold n in L. destruct (Nat.lt_trichotomy j n) as [H|[->|H]].
      * destruct (pl_from _ _ _ _ PL j) as [i Hi]; [rewrite app_length; fold n; lia|]. exists (S i). right. exists i, j. splits; auto. unfold past. apply Nat.ltb_lt in H. now rewrite H.
      * exists 0. auto.
      * destruct (pl_from _ _ _ _ PL (j - 1)) as [i Hi]; [rewrite app_length; fold n; lia|]. exists (S i). right. exists i, (j - 1). splits; auto. unfold past. destruct (Nat.ltb_spec (j - 1) n); lia.
    + intros i i' j j' b b' [[-> ->]|(i1 & j1 & -> & R1 & ->)] [[-> ->]|(i2 & j2 & -> & R2 & ->)] Hb Hb' Pb Pb' L; try lia.
      * cbn in Hb, Hb'. injection Hb as ->. destruct (pl_same _ _ _ _ PL _ _ R2) as (c & C1 & C2). assert (c = b') by congruence. subst c.
        unfold past. destruct (Nat.ltb_spec j2 n) as [L2|L2]; [|lia]. exfalso. unfold n in L2. rewrite nth_error_app1 in C2 by auto. apply nth_error_In in C2.
        assert (HIN : In b' (filter p x)) by (apply filter_In; auto). rewrite (HX Pb) in HIN. destruct HIN.
      * cbn in Hb, Hb'. assert (L1 : j1 < j2) by (apply (pl_order _ _ _ _ PL i1 i2 j1 j2 b b'); auto; lia). unfold past. destruct (Nat.ltb_spec j1 n), (Nat.ltb_spec j2 n); lia.
Qed.
Lemma places_flip {A} (p : A -> bool) l1 l2 R : places p l1 l2 R -> places p l2 l1 (flip R).
Proof.
  intros PL. constructor; unfold flip.
  - intros i j j' H H'. exact (pl_inj _ _ _ _ PL _ _ _ H H').
  - intros i i' j H H'. exact (pl_fun _ _ _ _ PL _ _ _ H H').
  - intros i j H. destruct (pl_same _ _ _ _ PL _ _ H) as (a & H1 & H2). eauto.
  - apply (pl_from _ _ _ _ PL).
  - apply (pl_to _ _ _ _ PL).
  - intros i i' j j' a a' H H' Ha Ha' Pa Pa' L. destruct (pl_same _ _ _ _ PL _ _ H) as (b & B1 & B2). destruct (pl_same _ _ _ _ PL _ _ H') as (b' & B1' & B2').
    assert (b = a) by congruence. assert (b' = a') by congruence. subst b b'. destruct (Nat.lt_trichotomy j j') as [G|[G|G]]; auto.
    + subst j'. pose proof (pl_fun _ _ _ _ PL _ _ _ H H'). lia.
    + pose proof (pl_order _ _ _ _ PL _ _ _ _ _ _ H' H B1' B1 Pa' Pa G). lia.
Qed.

(** ** The rules of one grammar *)
Section Side.
Context (ds : list decl) (g : grammar) (o : list (nat * nat)) (DE : declared ds g o).
Notation n := (List.length (rules_in ds)).

Lemma sd_low i d : nth_error (rules_in ds) i = Some d -> exists ru, nth_error (g_rules g) i = Some ru /\ rule_made g o d ru.
Proof.
  intros Hd. destruct (de_rules _ _ _ DE) as (rs & HR & HF). destruct (forall2_nth _ _ _ HF _ _ Hd) as (ru & Hru & RM). exists ru. split; auto. rewrite HR. now apply nth_error_ext.
Qed.
Lemma fm_nth (l : list (nat * nat)) : forall j e p, nth_error l j = Some p -> e < 2 -> nth_error (flat_map (opt_made g) l) (2 * j + e) = nth_error (opt_made g p) e.
Proof.
  induction l as [|q l IH]; intros [|j] e p Hp He; try discriminate.
  - cbn in Hp. injection Hp as ->. destruct e as [|[|e]]; [reflexivity|reflexivity|lia].
  - cbn [nth_error] in Hp. rewrite <- (IH j e p Hp He). replace (2 * S j + e) with (S (S (2 * j + e))) by lia. reflexivity.
Qed.
Lemma fm_split (l : list (nat * nat)) : forall k, k < List.length (flat_map (opt_made g) l) -> exists j e p, nth_error l j = Some p /\ e < 2 /\ k = 2 * j + e.
Proof.
  induction l as [|q l IH]; intros k L; [cbn in L; lia|]. destruct k as [|[|k]]; [exists 0, 0, q; auto|exists 0, 1, q; splits; auto; lia|].
  destruct (IH k) as (j & e & p & H1 & H2 & H3); [cbn in L |- *; lia|]. exists (S j), e, p. splits; auto. lia.
Qed.
Lemma sd_opt j e p : nth_error o j = Some p -> e < 2 -> nth_error (g_rules g) (n + (2 * j + e)) = nth_error (opt_made g p) e.
Proof.
  intros Hp He. destruct (de_rules _ _ _ DE) as (rs & HR & HF). rewrite HR, nth_error_app2; rewrite <- (forall2_lt _ _ _ HF); [|lia]. rewrite Nat.add_comm, Nat.add_sub. now apply fm_nth.
Qed.
Lemma sd_split r : r < List.length (g_rules g) -> r < n \/ exists j e p, nth_error o j = Some p /\ e < 2 /\ r = n + (2 * j + e).
Proof.
  intros L. destruct (de_rules _ _ _ DE) as (rs & HR & HF). rewrite HR, app_length, <- (forall2_lt _ _ _ HF) in L. destruct (Nat.lt_ge_cases r n) as [H|H]; auto. right.
  destruct (fm_split o (r - n)) as (j & e & p & H1 & H2 & H3); [lia|]. exists j, e, p. splits; auto. lia.
Qed.
Lemma sd_name1 i m : at_name g i "$" -> m = i -> i = 0.
Proof. intros H _. apply (de_uniq _ _ _ DE i 0 "$"); auto; [apply DE|discriminate]. Qed.
Lemma sd_fst j j' Z X X' : nth_error o j = Some (Z, X) -> nth_error o j' = Some (Z, X') -> j = j'.
Proof. intros H H'. eapply (NoDup_nth_error (map fst o)); [apply DE| |now rewrite !nth_error_map, H, H']. apply nth_error_Some. now rewrite nth_error_map, H. Qed.
Lemma sd_opt1 Z X X' : In (Z, X) o -> In (Z, X') o -> X = X'.
Proof. intros H H'. apply In_nth_error in H as [j Hj]. apply In_nth_error in H' as [j' Hj']. pose proof (sd_fst _ _ _ _ _ Hj Hj'). congruence. Qed.
End Side.

(** ** The correspondence *)
Definition known (n : string) : Prop := n = "$" \/ upper n \/ lower n.
Definition rule_to (g1 g2 : grammar) (o1 o2 : list (nat * nat)) (n : nat) (P : nat -> nat -> Prop) (r q : nat) : Prop :=
  P r q \/ exists j j' e Z Z' X Y m, nth_error o1 j = Some (Z, X) /\ nth_error o2 j' = Some (Z', Y) /\ e < 2 /\ at_name g1 Z m /\ at_name g2 Z' m /\ (upper m \/ lower m) /\
    r = n + (2 * j + e) /\ q = n + (2 * j' + e).
Definition sym_to (g1 g2 : grammar) (o1 o2 : list (nat * nat)) (P : nat -> nat -> Prop) (X Y : nat) : Prop :=
  (exists m, known m /\ at_name g1 X m /\ at_name g2 Y m) \/
  (exists Z Z' m, In (Z, X) o1 /\ In (Z', Y) o2 /\ at_name g1 Z m /\ at_name g2 Z' m /\ (upper m \/ lower m)) \/
  (at_name g1 X "" /\ at_name g2 Y "" /\ exists r q ru qu d, P r q /\ nth_error (g_rules g1) r = Some ru /\ nth_error (g_rules g2) q = Some qu /\
     nth_error (map fst (r_rhs ru)) d = Some X /\ nth_error (map fst (r_rhs qu)) d = Some Y).
Lemma rule_to_flip g1 g2 o1 o2 n P r q : rule_to g1 g2 o1 o2 n P r q -> rule_to g2 g1 o2 o1 n (flip P) q r.
Proof. intros [H|(j & j' & e & Z & Z' & X & Y & m & H)]; [now left|]. right. exists j', j, e, Z', Z, Y, X, m. tauto. Qed.
Lemma sym_to_flip g1 g2 o1 o2 P X Y : sym_to g1 g2 o1 o2 P X Y -> sym_to g2 g1 o2 o1 (flip P) Y X.
Proof.
  intros [(m & H)|[(Z & Z' & m & H)|(H1 & H2 & r & q & ru & qu & d & H)]]; [left; exists m; tauto|right; left; exists Z', Z, m; tauto|].
  right. right. splits; auto. exists q, r, qu, ru, d. unfold flip. tauto.
Qed.
Lemma known_opt k m : known m -> m <> optional_name k.
Proof. intros [->|H]; [discriminate|now apply opt_not_id]. Qed.
Lemma known_ne m : known m -> m <> "".
Proof. intros [->|[H|H]]; [discriminate|now apply upper_nonempty|now apply lower_nonempty]. Qed.
Lemma known_id m : upper m \/ lower m -> known m. Proof. now right. Qed.

Section Fun.
Context (ds1 ds2 : list decl) (g1 g2 : grammar) (o1 o2 : list (nat * nat)) (p : drule -> bool) (P : nat -> nat -> Prop).
Context (DE1 : declared ds1 g1 o1) (DE2 : declared ds2 g2 o2) (WR1 : written ds1 g1) (PL : places p (rules_in ds1) (rules_in ds2) P) (W1 : wf_grammar g1) (W2 : wf_grammar g2).
Notation S := (sym_to g1 g2 o1 o2 P).
Notation R := (rule_to g1 g2 o1 o2 (List.length (rules_in ds1)) P).

Lemma sym_fun X Y Y' : S X Y -> S X Y' -> Y = Y'.
Proof.
  intros [(m & Km & A1 & A2)|[(Z1 & Z1' & m & I1 & I2 & A1 & A2 & Hm)|(A1 & A2 & r & q & ru & qu & d & HP & Hr & Hq & Hd & Hd')]]
         [(m' & Km' & B1 & B2)|[(Z2 & Z2' & m' & J1 & J2 & B1 & B2 & Hm')|(B1 & B2 & r' & q' & ru' & qu' & d' & HP' & Hr' & Hq' & He & He')]].
  - pose proof (at_fun _ _ _ _ A1 B1) as ->. apply (de_uniq _ _ _ DE2 Y Y' m'); auto. now apply known_ne.
  - exfalso. destruct (opt_named _ _ _ DE1 _ _ J1) as (k & Hk). apply (known_opt k m Km). exact (at_fun _ _ _ _ A1 Hk).
  - exfalso. apply (known_ne m Km). exact (at_fun _ _ _ _ A1 B1).
  - exfalso. destruct (opt_named _ _ _ DE1 _ _ I1) as (k & Hk). apply (known_opt k m' Km'). exact (at_fun _ _ _ _ B1 Hk).
  - pose proof (opt_uniq _ _ _ DE1 _ _ _ I1 J1) as ->. pose proof (at_fun _ _ _ _ A1 B1) as ->. assert (Z1' = Z2') as -> by (apply (de_uniq _ _ _ DE2 _ _ m'); auto; now apply known_ne, known_id).
    eapply sd_opt1; eauto.
  - exfalso. destruct (opt_named _ _ _ DE1 _ _ I1) as (k & Hk). pose proof (at_fun _ _ _ _ Hk B1). discriminate.
  - exfalso. apply (known_ne m' Km'). exact (at_fun _ _ _ _ B1 A1).
  - exfalso. destruct (opt_named _ _ _ DE1 _ _ J1) as (k & Hk). pose proof (at_fun _ _ _ _ Hk A1). discriminate.
  - destruct (anon_place ds1 g1 X r r' ru ru' d d' WR1 A1 Hr Hr' Hd He) as [-> ->]. pose proof (pl_fun _ _ _ _ PL _ _ _ HP HP') as ->. congruence.
Qed.
Lemma rule_fun r q q' : R r q -> R r q' -> q = q'.
Proof.
  assert (HL : forall i j, P i j -> i < List.length (rules_in ds1)) by (intros i j H; destruct (pl_same _ _ _ _ PL _ _ H) as (a & Ha & _); apply nth_error_Some; congruence).
  intros [H|(j & j' & e & Z & Z' & X & Y & m & I1 & I2 & Le & A1 & A2 & Hm & -> & ->)] [H'|(k & k' & e' & Z2 & Z2' & X2 & Y2 & m2 & J1 & J2 & Le2 & B1 & B2 & Hm2 & E & ->)].
  - eapply (pl_fun _ _ _ _ PL); eauto.
  - apply HL in H. lia.
  - apply HL in H'. lia.
  - assert (j = k) as -> by lia. assert (e = e') as -> by lia. rewrite I1 in J1. injection J1 as <- <-. pose proof (at_fun _ _ _ _ A1 B1) as ->.
    assert (Z' = Z2') as -> by (apply (de_uniq _ _ _ DE2 _ _ m2); auto; now apply known_ne, known_id). pose proof (sd_fst _ _ _ DE2 _ _ _ _ _ I2 J2) as ->. reflexivity.
Qed.

(** ** Symbols *)
Context (SW : same_words ds1 ds2).
Lemma rules_len : List.length (rules_in ds2) = List.length (rules_in ds1).
Proof. symmetry. apply Permutation_length, SW. Qed.
Lemma dollar_kind ds g o i : declared ds g o -> at_name g i "$" -> i = 0 /\ kind_at g i = Some KTerm.
Proof.
  intros DE H. assert (i = 0) as -> by (apply (de_uniq _ _ _ DE i 0 "$"); auto; [apply DE|discriminate]). split; auto. destruct H as (s & Hs & Es). unfold kind_at. rewrite Hs. cbn. f_equal.
  assert (Hn : sy_name s <> "") by (rewrite Es; discriminate). destruct (de_named _ _ _ DE _ _ Hs Hn) as [(_ & _ & E)|[(U & _)|[(L & _)|[((k & E) & _)|(_ & E & _)]]]]; auto; rewrite Es in *; discriminate.
Qed.
Lemma at_members m l ns : (forall x, In x l -> at_name g1 x (gname g1 x) /\ upper (gname g1 x)) -> (forall x, In x m -> at_name g2 x (gname g2 x) /\ upper (gname g2 x)) ->
  map (gname g1) l = ns -> map (gname g2) m = ns -> Forall2 S l m.
Proof.
  intros H1 H2 <-. revert m H2. induction l as [|x l IH]; intros [|y m] H2 E; try discriminate; constructor.
  - cbn in E. injection E as E _. left. exists (gname g1 x). destruct (H1 x) as [A1 U1]; [now left|]. destruct (H2 y) as [A2 U2]; [now left|]. splits; [now right; left|auto|]. now rewrite <- E.
  - cbn in E. injection E as _ E. apply IH; auto; intros z Hz; [apply H1|apply H2]; now right.
Qed.
Lemma class_kind ds g o i m : declared ds g o -> wf_grammar g -> at_name g i m -> upper m -> 
  match class_of ds m with
  | Some ns => exists l, kind_at g i = Some (KMulti l) /\ map (gname g) l = ns /\ forall x, In x l -> at_name g x (gname g x) /\ upper (gname g x)
  | None => kind_at g i = Some KTerm
  end.
Proof.
  intros DE W A U. destruct (sym_decl _ _ _ DE _ _ A (upper_nonempty _ U)) as (_ & _ & HM). destruct (upper_kind _ _ _ DE _ _ A U) as [_ HK]. pose proof (at_kind _ _ _ A) as Hk. rewrite <- HM.
  destruct (sy_kind (gsym g i)) as [| |l] eqn:E; cbn; auto; [contradiction|]. exists l. splits; auto. intros x Hx. destruct (wg_multi g W _ _ _ Hk Hx) as (L & _). split; [now apply gname_at|eapply de_multi; eauto].
Qed.
Lemma multi_alike toks l m : Forall (fun n => upper n) toks -> Forall2 (at_name g1) l toks -> Forall2 (at_name g2) m toks -> Forall2 S l m.
Proof.
  intros HU. revert l m. induction HU as [|t ts U HU IH]; intros l m H1 H2; inversion H1; subst; inversion H2; subst; constructor; auto. left. exists t. splits; auto. now right; left.
Qed.
Lemma anon_elem ds g o e X : declared ds g o -> elem_sym g o e X -> at_name g X "" ->
  exists toks al b l, e = (toks, b, al) /\ 2 <= List.length toks /\ Forall (fun n => upper n) toks /\ kind_at g X = Some (KMulti l) /\ Forall2 (at_name g) l toks.
Proof.
  intros DE. destruct e as [[toks b] al]. destruct toks as [|t [|t2 toks]]; intros HE A; [destruct HE| |].
  - exfalso. destruct HE as [Ht HE]. destruct b.
    + destruct HE as (Z & HZ & _). destruct (opt_named _ _ _ DE _ _ HZ) as (k & Hk). pose proof (at_fun _ _ _ _ Hk A). discriminate.
    + apply (known_ne t (known_id _ Ht)). exact (at_fun _ _ _ _ HE A).
  - destruct HE as (HU & _ & l & HK & HF). exists (t :: t2 :: toks), al, b, l. splits; auto. cbn. lia.
Qed.
Lemma sym_kind X Y : S X Y -> exists k1 k2, kind_at g1 X = Some k1 /\ kind_at g2 Y = Some k2 /\ kind_alike S k1 k2.
Proof.
  intros [(m & Km & A1 & A2)|[(Z1 & Z1' & m & I1 & I2 & A1 & A2 & Hm)|(A1 & A2 & r & q & ru & qu & d & HP & Hr & Hq & Hd & Hd')]].
  - destruct Km as [->|[U|L]].
    + exists KTerm, KTerm. destruct (dollar_kind _ _ _ _ DE1 A1). destruct (dollar_kind _ _ _ _ DE2 A2). splits; auto. cbn. auto.
    + pose proof (class_kind _ _ _ _ _ DE1 W1 A1 U) as C1. pose proof (class_kind _ _ _ _ _ DE2 W2 A2 U) as C2. rewrite <- (sw_class _ _ SW) in C2. destruct (class_of ds1 m) as [ns|].
      * destruct C1 as (l1 & K1 & E1 & H1). destruct C2 as (l2 & K2 & E2 & H2). exists (KMulti l1), (KMulti l2). splits; auto. cbn. eapply at_members; eauto.
      * exists KTerm, KTerm. splits; auto. cbn. auto.
    + exists KNonTerm, KNonTerm. splits; [eapply lower_kind; eauto|eapply lower_kind; eauto|cbn; auto].
  - destruct (opt_named _ _ _ DE1 _ _ I1) as (k & Hk). destruct (opt_named _ _ _ DE2 _ _ I2) as (k' & Hk'). exists KNonTerm, KNonTerm. splits; [eapply opt_nonterm; eauto|eapply opt_nonterm; eauto|cbn; auto].
  - destruct (pl_same _ _ _ _ PL _ _ HP) as (dr & D1 & D2). destruct (sd_low _ _ _ DE1 _ _ D1) as (ru' & Hr' & RM1). destruct (sd_low _ _ _ DE2 _ _ D2) as (qu' & Hq' & RM2).
    assert (ru' = ru) by congruence. assert (qu' = qu) by congruence. subst ru' qu'.
    destruct (forall2_nth _ _ _ (forall2_flip _ _ _ (rm_rhs _ _ _ _ RM1)) _ _ Hd) as (e & He & HE). destruct (forall2_nth _ _ _ (forall2_flip _ _ _ (rm_rhs _ _ _ _ RM2)) _ _ Hd') as (e' & He' & HE').
    assert (e' = e) by congruence. subst e'. unfold flip in HE, HE'. destruct (anon_elem _ _ _ _ _ DE1 HE A1) as (toks & al & b & l & -> & L & HU & HK & HF). destruct (anon_elem _ _ _ _ _ DE2 HE' A2) as (toks' & al' & b' & l' & E & _ & _ & HK' & HF').
    injection E as <- <- <-. exists (KMulti l), (KMulti l'). splits; auto. cbn. eapply multi_alike; eauto.
Qed.
Context (AU : forall n q, assoc_of ds1 n = Some q -> upper n).
Lemma AU2 n q : assoc_of ds2 n = Some q -> upper n.
Proof. rewrite <- (sw_assoc _ _ SW). apply AU. Qed.
Lemma sym_prec X Y : S X Y -> sy_prec (gsym g2 Y) = sy_prec (gsym g1 X).
Proof.
  intros [(m & Km & A1 & A2)|[(Z1 & Z1' & m & I1 & I2 & A1 & A2 & Hm)|(A1 & A2 & _)]].
  - rewrite (prec_at _ _ _ DE1 _ _ A1 (known_ne _ Km)), (prec_at _ _ _ DE2 _ _ A2 (known_ne _ Km)). symmetry. apply SW.
  - destruct (opt_named _ _ _ DE1 _ _ I1) as (k & Hk). destruct (opt_named _ _ _ DE2 _ _ I2) as (k' & Hk'). rewrite (prec_at _ _ _ DE1 _ _ Hk), (prec_at _ _ _ DE2 _ _ Hk') by discriminate.
    rewrite (assoc_opt ds1 AU), (assoc_opt ds2 AU2). reflexivity.
  - destruct A1 as (s1 & H1 & E1). destruct A2 as (s2 & H2 & E2). unfold gsym. rewrite (nth_error_nth _ _ _ H1), (nth_error_nth _ _ _ H2). destruct (de_anon _ _ _ DE1 _ _ H1 E1) as (-> & _). destruct (de_anon _ _ _ DE2 _ _ H2 E2) as (-> & _). reflexivity.
Qed.
Lemma kind_lt g X k : kind_at g X = Some k -> X < List.length (g_syms g).
Proof. unfold kind_at. intros H. apply nth_error_Some. intros E. rewrite E in H. discriminate. Qed.
Lemma sym_nterm X Y : S X Y -> X < g_nterm g1 <-> Y < g_nterm g2.
Proof.
  intros H. destruct (sym_kind _ _ H) as (k1 & k2 & K1 & K2 & K). rewrite <- (wg_term g1 W1 X (kind_lt _ _ _ K1)), <- (wg_term g2 W2 Y (kind_lt _ _ _ K2)), K1, K2.
  destruct k1, k2; cbn in K; try contradiction; split; congruence.
Qed.

(** ** Rules *)
Lemma names_same e : elem_names ds2 e = elem_names ds1 e.
Proof. destruct e as [[[|n [|m ns]] [|]] al]; cbn; auto. now rewrite (sw_class _ _ SW). Qed.
Lemma first_same l : first_of (assoc_of ds2) l = first_of (assoc_of ds1) l.
Proof. apply first_of_ext. intros. symmetry. apply SW. Qed.
Lemma prec_same d : prec_of ds2 d = prec_of ds1 d.
Proof.
  unfold prec_of. destruct (d_prec d); [symmetry; apply SW|]. rewrite first_same. f_equal. apply flat_map_ext. apply names_same.
Qed.
Lemma elem_to r q ru qu d e X Y : P r q -> nth_error (g_rules g1) r = Some ru -> nth_error (g_rules g2) q = Some qu -> nth_error (map fst (r_rhs ru)) d = Some X -> nth_error (map fst (r_rhs qu)) d = Some Y ->
  elem_sym g1 o1 e X -> elem_sym g2 o2 e Y -> S X Y.
Proof.
  intros HP Hr Hq HX HY E1 E2. destruct e as [[toks b] al]. destruct toks as [|t [|t2 toks]]; [destruct E1| |].
  - destruct E1 as [Ht E1]. destruct E2 as [_ E2]. destruct b.
    + destruct E1 as (Z & HZ & A1). destruct E2 as (Z' & HZ' & A2). right. left. exists Z, Z', t. auto.
    + left. exists t. splits; auto. now right.
  - destruct E1 as (_ & A1 & _). destruct E2 as (_ & A2 & _). right. right. splits; auto. exists r, q, ru, qu, d. auto.
Qed.
Lemma nth_forall2 {A B} (Q : A -> B -> Prop) l m : List.length l = List.length m -> (forall i a b, nth_error l i = Some a -> nth_error m i = Some b -> Q a b) -> Forall2 Q l m.
Proof.
  revert m. induction l as [|a l IH]; intros [|b m] L H; try discriminate; constructor; [apply (H 0); auto|]. apply IH; [cbn in L; lia|]. intros i. apply (H (Datatypes.S i)).
Qed.
Lemma rule_alike r q : R r q -> exists ru qu, nth_error (g_rules g1) r = Some ru /\ nth_error (g_rules g2) q = Some qu /\ made_alike S ru qu.
Proof.
  intros [HP|(j & j' & e & Z & Z' & X & Y & m & I1 & I2 & Le & A1 & A2 & Hm & -> & ->)].
  - destruct (pl_same _ _ _ _ PL _ _ HP) as (dr & D1 & D2). destruct (rule_prec_decl ds1 g1 o1 DE1 W1 AU _ _ D1) as (ru & Hr & RM1 & E1). destruct (rule_prec_decl ds2 g2 o2 DE2 W2 AU2 _ _ D2) as (qu & Hq & RM2 & E2).
    exists ru, qu. splits; auto. constructor.
    + left. exists (d_lhs dr). splits; [right; right; apply RM1|apply RM1|apply RM2].
    + apply nth_forall2; [rewrite <- (forall2_lt _ _ _ (rm_rhs _ _ _ _ RM1)), <- (forall2_lt _ _ _ (rm_rhs _ _ _ _ RM2)); reflexivity|].
      intros i X Y HX HY. destruct (forall2_nth _ _ _ (forall2_flip _ _ _ (rm_rhs _ _ _ _ RM1)) _ _ HX) as (e & He & HE). destruct (forall2_nth _ _ _ (forall2_flip _ _ _ (rm_rhs _ _ _ _ RM2)) _ _ HY) as (e' & He' & HE').
      assert (e' = e) by congruence. subst e'. eapply elem_to; eauto.
    + rewrite E1, E2. apply prec_same.
  - assert (HS : S X Y) by (right; left; exists Z, Z', m; splits; auto; eapply nth_error_In; eauto). assert (HZ : S Z Z') by (left; exists m; splits; auto; now right).
    pose proof (sd_opt _ _ _ DE1 _ _ _ I1 Le) as R1. pose proof (sd_opt _ _ _ DE2 _ _ _ I2 Le) as R2. rewrite rules_len in R2. destruct e as [|[|e]]; [| |lia]; cbn [nth_error opt_made] in R1, R2.
    + do 2 eexists. splits; eauto. constructor; cbn; auto.
    + do 2 eexists. splits; eauto. constructor; cbn; auto. assert (HP : forall al, elem_sym g1 o1 ([m], false, al) Z /\ elem_sym g2 o2 ([m], false, al) Z') by (intros; cbn; auto).
      rewrite (elem_prec ds1 g1 o1 DE1 W1 AU _ _ (proj1 (HP None))), (elem_prec ds2 g2 o2 DE2 W2 AU2 _ _ (proj2 (HP None))), names_same. apply first_same.
Qed.
Lemma rule_total r : r < List.length (g_rules g1) -> exists q, R r q.
Proof.
  intros L. destruct (sd_split _ _ _ DE1 r L) as [H|(j & e & [Z X] & Hj & He & ->)].
  - destruct (pl_to _ _ _ _ PL r H) as [q Hq]. exists q. now left.
  - pose proof (nth_error_In _ _ Hj) as HI. destruct (de_opt4 _ _ _ DE1 _ _ HI) as (d & m & al & Hd & Hel & AZ).
    apply (Permutation_in _ (sw_rules _ _ SW)) in Hd. apply In_nth_error in Hd as [k Hk]. destruct (sd_low _ _ _ DE2 _ _ Hk) as (qu & _ & RM). destruct (GramFacts.forall2_in_l _ _ _ (rm_rhs _ _ _ _ RM) _ Hel) as (Y & _ & Hm & Z' & HZ' & AZ').
    apply In_nth_error in HZ' as [j' Hj']. exists (List.length (rules_in ds1) + (2 * j' + e)). right. exists j, j', e, Z, Z', X, Y, m. splits; auto.
Qed.

(** ** The order of rules with precedences *)
Context (PH : forall d, In d (rules_in ds1) -> prec_of ds1 d <> None -> p d = true).
Lemma opt_prec j e pr ru : nth_error o1 j = Some pr -> e < 2 -> nth_error (g_rules g1) (List.length (rules_in ds1) + (2 * j + e)) = Some ru -> r_prec ru <> None -> e = 1 /\ r_rhs ru = [(fst pr, true)].
Proof.
  intros Hj He Hr Hp. rewrite (sd_opt _ _ _ DE1 _ _ _ Hj He) in Hr. destruct e as [|[|e]]; [| |lia]; cbn in Hr; injection Hr as <-; cbn in *; [contradiction|auto].
Qed.
Lemma kept : ordered g1 R.
Proof.
  intros gamma a r r' q q' H1 H2 P1 P2 R1 R2.
  assert (HL : forall i j, P i j -> i < List.length (rules_in ds1) /\ j < List.length (rules_in ds1)).
  { intros i j H; destruct (pl_same _ _ _ _ PL _ _ H) as (b & Hb & Hb'). rewrite <- rules_len at 2. split; apply nth_error_Some; congruence. }
  assert (HW : forall i j, P i j -> r_prec (grule g1 i) <> None -> exists d, nth_error (rules_in ds1) i = Some d /\ nth_error (rules_in ds2) j = Some d /\ p d = true).
  { intros i j HP Hp. destruct (pl_same _ _ _ _ PL _ _ HP) as (d & D1 & D2). exists d. splits; auto. destruct (rule_prec_decl ds1 g1 o1 DE1 W1 AU _ _ D1) as (ru & Hr & _ & E). rewrite (grule_nth _ _ _ Hr), E in Hp.
    apply PH; auto. eapply nth_error_In; eauto. }
  destruct R1 as [A1|(j & j' & e & Z & Z' & X & Y & m & I1 & I2 & Le & A1 & A2 & Hm & -> & ->)], R2 as [B1|(k & k' & e' & Z2 & Z2' & X2 & Y2 & m2 & J1 & J2 & Le2 & B1 & B2 & Hm2 & -> & ->)].
  - destruct (HW _ _ A1 P1) as (d & D1 & D2 & Pd). destruct (HW _ _ B1 P2) as (d' & D1' & D2' & Pd'). split; intros L; [exact (pl_order _ _ _ _ PL _ _ _ _ _ _ A1 B1 D1 D1' Pd Pd' L)|].
    exact (pl_order _ _ _ _ (places_flip _ _ _ _ PL) _ _ _ _ _ _ A1 B1 D2 D2' Pd Pd' L).
  - destruct (HL _ _ A1). split; lia.
  - destruct (HL _ _ B1). split; lia.
  - inversion H1 as [|gm1 r0 ru C1 K1 T1 U1]; subst r0. inversion H2 as [|gm2 q0 qu C2 K2 T2 U2]; subst q0.
    change (nth_error (g_rules g1) (List.length (rules_in ds1) + (2 * j + e)) = Some ru) in K1. change (nth_error (g_rules g1) (List.length (rules_in ds1) + (2 * k + e')) = Some qu) in K2. rewrite (grule_nth _ _ _ K1) in P1. rewrite (grule_nth _ _ _ K2) in P2.
    destruct (opt_prec _ _ _ _ I1 Le K1 P1) as [-> E1]. destruct (opt_prec _ _ _ _ J1 Le2 K2 P2) as [-> E2]. cbn [fst] in E1, E2. rewrite E1 in T1. rewrite E2 in T2. cbn in T1, T2. apply lr1_lr0 in T1, T2. apply C1 in T1. apply C2 in T2.
    destruct (lr0_end _ _ _ _ T1 ru Z true K1) as (g3 & E3); [now rewrite E1|lia|]. destruct (lr0_end _ _ _ _ T2 qu Z2 true K2) as (g4 & E4); [now rewrite E2|lia|].
    assert (Z = Z2) as <- by (apply app_inj_tail with (x := g3) (y := g4); congruence). pose proof (sd_fst _ _ _ DE1 _ _ _ _ _ I1 J1) as <-.
    pose proof (at_fun _ _ _ _ A1 B1) as <-. assert (Z' = Z2') as <- by (apply (de_uniq _ _ _ DE2 _ _ m); auto; now apply known_ne, known_id). pose proof (sd_fst _ _ _ DE2 _ _ _ _ _ I2 J2) as <-. lia.
Qed.
End Fun.

Section Both.
Context (ds1 ds2 : list decl) (g1 g2 : grammar).
Context (WR1 : written ds1 g1) (WR2 : written ds2 g2) (SW : same_words ds1 ds2) (AU : forall n q, assoc_of ds1 n = Some q -> upper n).
Definition weighed (d : drule) : bool := opt_is_some (prec_of ds1 d).
Context (KO : filter weighed (rules_in ds1) = filter weighed (rules_in ds2)).

Theorem placed_iso o1 o2 P (DE1 : declared ds1 g1 o1) (DE2 : declared ds2 g2 o2) (PL : places weighed (rules_in ds1) (rules_in ds2) P) :
  iso g1 g2 (sym_to g1 g2 o1 o2 P) (rule_to g1 g2 o1 o2 (List.length (rules_in ds1)) P) /\ ordered g1 (rule_to g1 g2 o1 o2 (List.length (rules_in ds1)) P).
Proof.
  pose proof (written_wf _ _ WR1) as W1. pose proof (written_wf _ _ WR2) as W2.
  pose proof (places_flip _ _ _ _ PL) as PF. pose proof (sw_sym _ _ SW) as SW'. set (n := List.length (rules_in ds1)).
  assert (En : List.length (rules_in ds2) = n) by (apply (rules_len _ _ SW)).
  assert (AU' : forall m q, assoc_of ds2 m = Some q -> upper m) by (intros m q; rewrite <- (sw_assoc _ _ SW); apply AU).
  split; [constructor|].
  - intros X Y Y'. eapply sym_fun; eauto.
  - intros X X' Y H H'. apply sym_to_flip in H, H'. exact (sym_fun ds2 ds1 g2 g1 o2 o1 _ _ DE2 DE1 WR2 PF _ _ _ H H').
  - intros r q q'. eapply rule_fun; eauto.
  - intros r r' q H H'. apply rule_to_flip in H, H'. rewrite <- En in H, H'. exact (rule_fun ds2 ds1 g2 g1 o2 o1 _ _ DE1 PF _ _ _ H H').
  - left. exists "$". splits; [now left|apply DE1|apply DE2].
  - destruct (de_start _ _ _ DE1) as (s & E1 & A1 & L). destruct (de_start _ _ _ DE2) as (s' & E2 & A2 & _). rewrite <- (sw_start _ _ SW) in E2. assert (s' = s) by congruence. subst s'. left. exists s. splits; auto. now right; right.
  - intros X Y. eapply sym_kind; eauto.
  - intros X Y. eapply sym_prec; eauto.
  - intros X Y. eapply sym_nterm; eauto.
  - intros r q. eapply rule_alike; eauto.
  - intros r. eapply rule_total; eauto.
  - intros q L. destruct (rule_total ds2 ds1 g2 g1 o2 o1 _ _ DE2 DE1 PF SW' q L) as [r Hr]. exists r. apply rule_to_flip in Hr. rewrite En in Hr. exact Hr.
  - eapply kept; eauto. intros d _ Hp. unfold weighed. destruct (prec_of ds1 d); [reflexivity|contradiction].
Qed.
Theorem written_iso : exists S R, iso g1 g2 S R /\ ordered g1 R.
Proof.
  destruct (proj2 WR1) as [o1 DE1]. destruct (proj2 WR2) as [o2 DE2]. destruct (perm_places weighed _ _ (sw_rules _ _ SW) KO) as [P PL].
  do 2 eexists. exact (placed_iso o1 o2 P DE1 DE2 PL).
Qed.
Theorem same_conflicts : conflicting g1 -> conflicting g2.
Proof. destruct written_iso as (S & R & IO & OR). now apply (io_conflicting g1 g2 S R). Qed.
Theorem same_lost : (exists r, lost g1 r) -> exists q, lost g2 q.
Proof. destruct written_iso as (S & R & IO & OR). intros [r H]. now apply (io_lost g1 g2 S R IO OR r). Qed.
End Both.
