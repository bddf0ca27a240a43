(** The grammar with [q?] and the grammar with a nonterminal written out for it correspond (C53). *)
From Verif Require Import Base Syntax BaseFacts FrontEnd First States Actions Tables Runtime User Spec WfGrammar FrontFacts DeclSpec DeclFacts DeclMore PipeFacts BuildFacts GramFacts LangFacts
  ActFacts FaultSpec LalrFacts CycleFacts Main Claims13 IsoFacts AnonFacts OrderIso Claims28.
From Verif Require Claims23.
Open Scope string_scope. Open Scope nat_scope. Open Scope list_scope.

(** What a symbol stands for: a name, an optional element, or alternatives at a place of a rule *)
Inductive label := LName (m : ident) | LOpt (m : ident) | LAnon (r d : nat).
Inductive rlabel := RUser (r : nat) | ROpt (m : ident) (e : nat).

Section Lab.
Context (ds : list decl) (g : grammar) (opts : list (nat * nat)) (q o : ident) (n : nat) (nw : Prop).
Notation base := (List.length (rules_in ds)).
Inductive lab (X : nat) : label -> Prop :=
| lb_name m : known m -> m <> o -> at_name g X m -> lab X (LName m)
| lb_opt Z m : In (Z, X) opts -> at_name g Z m -> lab X (LOpt m)
| lb_new : nw -> at_name g X o -> lab X (LOpt q)
| lb_anon r ru d : at_name g X "" -> r < n -> nth_error (g_rules g) r = Some ru -> nth_error (map fst (r_rhs ru)) d = Some X -> lab X (LAnon r d).
Inductive rlab : nat -> rlabel -> Prop :=
| rb_user r : r < n -> rlab r (RUser r)
| rb_opt j e Z X m : nth_error opts j = Some (Z, X) -> e < 2 -> at_name g Z m -> rlab (base + (2 * j + e)) (ROpt m e)
| rb_some : nw -> rlab n (ROpt q 1)
| rb_none : nw -> rlab (S n) (ROpt q 0).

Context (DE : declared ds g opts) (WR : written ds g) (LO : lower o).
Context (NB : nw -> forall Z X, In (Z, X) opts -> ~ at_name g Z q) (HB : n <= base) (HW : nw -> base = S (S n)).
Lemma lo_ne : o <> "". Proof. now apply lower_nonempty. Qed.
Lemma lo_opt k : o <> optional_name k. Proof. apply known_opt. now right; right. Qed.
Lemma opt_ne Z X m : In (Z, X) opts -> at_name g Z m -> m <> "" /\ (upper m \/ lower m).
Proof. intros H A. destruct (de_opts _ _ _ DE _ _ H) as [(m' & A' & Hm) _]. pose proof (at_fun _ _ _ _ A A') as ->. split; auto. now apply known_ne, known_id. Qed.
Lemma lab_fun X l l' : lab X l -> lab X l' -> l = l'.
Proof.
  intros H H'. destruct H as [m Km Nm A|Z m I A|W A|r ru d A L Hr Hd]; destruct H' as [m' Km' Nm' A'|Z' m' I' A'|W' A'|r' ru' d' A' L' Hr' Hd']; auto.
  - f_equal. exact (at_fun _ _ _ _ A A').
  - exfalso. destruct (opt_named _ _ _ DE _ _ I') as (k & Hk). exact (known_opt k m Km (at_fun _ _ _ _ A Hk)).
  - exfalso. exact (Nm (at_fun _ _ _ _ A A')).
  - exfalso. exact (known_ne m Km (at_fun _ _ _ _ A A')).
  - exfalso. destruct (opt_named _ _ _ DE _ _ I) as (k & Hk). exact (known_opt k m' Km' (at_fun _ _ _ _ A' Hk)).
  - pose proof (opt_uniq _ _ _ DE _ _ _ I I') as <-. f_equal. exact (at_fun _ _ _ _ A A').
  - exfalso. destruct (opt_named _ _ _ DE _ _ I) as (k & Hk). exact (lo_opt k (at_fun _ _ _ _ A' Hk)).
  - exfalso. destruct (opt_named _ _ _ DE _ _ I) as (k & Hk). pose proof (at_fun _ _ _ _ A' Hk). discriminate.
  - exfalso. exact (Nm' (at_fun _ _ _ _ A' A)).
  - exfalso. destruct (opt_named _ _ _ DE _ _ I') as (k & Hk). exact (lo_opt k (at_fun _ _ _ _ A Hk)).
  - exfalso. exact (lo_ne (at_fun _ _ _ _ A A')).
  - exfalso. exact (known_ne m' Km' (at_fun _ _ _ _ A' A)).
  - exfalso. destruct (opt_named _ _ _ DE _ _ I') as (k & Hk). pose proof (at_fun _ _ _ _ A Hk). discriminate.
  - exfalso. exact (lo_ne (at_fun _ _ _ _ A' A)).
  - destruct (anon_place ds g X r r' ru ru' d d' WR A Hr Hr' Hd Hd') as [-> ->]. reflexivity.
Qed.
Lemma lab_inj X X' l : lab X l -> lab X' l -> X = X'.
Proof.
  intros H H'. destruct H as [m Km Nm A|Z m I A|W A|r ru d A L Hr Hd]; inversion H' as [m' Km' Nm' A'|Z' m' I' A'|W' A'|r' ru' d' A' L' Hr' Hd']; subst.
  - apply (de_uniq _ _ _ DE _ _ m); auto. now apply known_ne.
  - destruct (opt_ne _ _ _ I A) as [Nm _]. pose proof (de_uniq _ _ _ DE _ _ m A A' Nm) as <-. eapply sd_opt1; eauto.
  - exfalso. exact (NB W' _ _ I A).
  - exfalso. exact (NB W _ _ I' A').
  - apply (de_uniq _ _ _ DE _ _ o); auto. apply lo_ne.
  - congruence.
Qed.
Lemma rlab_fun r l l' : rlab r l -> rlab r l' -> l = l'.
Proof.
  intros H. destruct H as [r L|j e Z X m Hj He A|W|W]; intros H'; inversion H' as [r' L'|j' e' Z' X' m' Hj' He' A' Er|W'|W' Er]; subst; auto; try lia; try (pose proof (HW W'); lia); try (pose proof (HW W); lia).
  assert (j' = j) as -> by lia. assert (e' = e) as -> by lia. rewrite Hj in Hj'. injection Hj' as <- <-. f_equal. exact (at_fun _ _ _ _ A A').
Qed.
Lemma rlab_inj r r' l : rlab r l -> rlab r' l -> r = r'.
Proof.
  intros H. destruct H as [r L|j e Z X m Hj He A|W|W]; intros H'; inversion H' as [r1 L'|j' e' Z' X' m' Hj' He' A' Er|W'|W']; subst; auto.
  - destruct (opt_ne _ _ _ (nth_error_In _ _ Hj) A) as [Nm _]. pose proof (de_uniq _ _ _ DE _ _ m A A' Nm) as <-. pose proof (sd_fst _ _ _ DE _ _ _ _ _ Hj Hj') as ->. reflexivity.
  - exfalso. exact (NB W' _ _ (nth_error_In _ _ Hj) A).
  - exfalso. exact (NB W' _ _ (nth_error_In _ _ Hj) A).
  - exfalso. exact (NB W _ _ (nth_error_In _ _ Hj') A').
  - exfalso. exact (NB W _ _ (nth_error_In _ _ Hj') A').
Qed.
Lemma lab_opt_kind X m : lab X (LOpt m) -> kind_at g X = Some KNonTerm.
Proof.
  intros H. inversion H as [|Z m' I A|W A|]; subst.
  - destruct (opt_named _ _ _ DE _ _ I) as (k & Hk). eapply opt_nonterm; eauto.
  - eapply lower_kind; eauto.
Qed.
(** Without precedences no symbol and no rule has one. *)
Context (AN : forall m, assoc_of ds m = None).
Lemma no_sym_prec X : sy_prec (gsym g X) = None.
Proof.
  unfold gsym. destruct (nth_error (g_syms g) X) as [s|] eqn:Es.
  - rewrite (nth_error_nth _ _ _ Es). destruct (string_dec (sy_name s) "") as [E|E]; [apply (de_anon _ _ _ DE _ _ Es E)|]. destruct (de_sym _ _ _ DE _ _ Es E) as (-> & _). apply AN.
  - rewrite nth_overflow; [reflexivity|]. now apply nth_error_None.
Qed.
Lemma no_rhs_prec X : rhs_sym_prec g X = None.
Proof.
  unfold rhs_sym_prec. rewrite no_sym_prec. destruct (sy_kind (gsym g X)) as [| |ms]; auto. induction ms as [|a ms IH]; auto. cbn. now rewrite no_sym_prec.
Qed.
Lemma no_rule_prec r ru : nth_error (g_rules g) r = Some ru -> r_prec ru = None.
Proof.
  clear HW HB. intros H. destruct (sd_split _ _ _ DE r) as [L|(j & e & p & Hj & He & ->)]; [apply nth_error_Some; congruence| |].
  - destruct (nth_error (rules_in ds) r) as [d|] eqn:Ed; [|apply nth_error_None in Ed; lia]. destruct (sd_low _ _ _ DE _ _ Ed) as (ru' & H' & RM). assert (ru' = ru) by congruence. subst ru'.
    rewrite (rm_prec _ _ _ _ RM). destruct (r_precsym ru); [apply no_sym_prec|]. induction (r_rhs ru) as [|x l IH]; auto. cbn. now rewrite no_rhs_prec.
  - rewrite (sd_opt _ _ _ DE _ _ _ Hj He) in H. destruct e as [|[|e]]; [| |lia]; cbn in H; injection H as <-; cbn; auto. apply no_rhs_prec.
Qed.
End Lab.

Lemma start_mentioned ds s : start_of ds = Some s -> mentions ds s.
Proof.
  unfold start_of. destruct (start_line ds) as [n|] eqn:El.
  - intros H. injection H as <-. unfold start_line in El. induction ds as [|d l IH]; [discriminate|]. cbn in El. destruct d; try (destruct (IH El) as (d' & H1 & H2); exists d'; split; auto; now right). injection El as <-. exists (DStartSymbol id). split; now left.
  - destruct (rules_in ds) as [|d l] eqn:Er; [discriminate|]. intros H. injection H as <-. apply (Claims23.rule_mentions ds d). rewrite Er. now left.
Qed.

(** ** The two grammars *)
Section Pair.
Context (ds1 ds' : list decl) (q o al : ident) (cs cn : nat) (t : ty).
Notation ds2 := (ds' ++ opt_lines t q o al cs cn).
Context (UW : Forall2 (unwrapped_decl q o) ds1 ds') (NM : ~ mentions ds1 o) (LO : lower o) (QO : q <> o).
Context (NQ : forall a, ~ has_elem ds' ([q], true, a)) (OC : exists a, has_elem ds1 ([q], true, a)).
Context (EC : forall m, class_of ds2 m = class_of ds1 m) (ES : start_of ds2 = start_of ds1) (A1 : forall m, assoc_of ds1 m = None) (A2 : forall m, assoc_of ds2 m = None).
Context (g1 g2 : grammar) (o1 o2 : list (nat * nat)) (DE1 : declared ds1 g1 o1) (DE2 : declared ds2 g2 o2) (WR1 : written ds1 g1) (WR2 : written ds2 g2).
Notation n := (List.length (rules_in ds1)).
Notation lab1 := (lab g1 o1 q o n False).
Notation lab2 := (lab g2 o2 q o n True).
Notation rlab1 := (rlab ds1 g1 o1 q n False).
Notation rlab2 := (rlab ds2 g2 o2 q n True).
Definition osym (X Y : nat) : Prop := exists l, lab1 X l /\ lab2 Y l.
Definition orule (r s : nat) : Prop := exists l, rlab1 r l /\ rlab2 s l.
Notation UR := (ow_rules ds1 ds' q o UW).

Lemma pr_len' : List.length (rules_in ds') = n.
Proof. symmetry. exact (forall2_lt _ _ _ UR). Qed.
Lemma pr_len2 : List.length (rules_in ds2) = S (S n).
Proof. rewrite rules_app, app_length, pr_len'. cbn. lia. Qed.
Lemma pr_o d : In d (rules_in ds1) -> d_lhs d <> o /\ forall e, In e (d_rhs d) -> ~ In o (fst (fst e)).
Proof. exact (ow_mention ds1 o NM d). Qed.
Lemma pr_user i d : nth_error (rules_in ds1) i = Some d -> exists d' ru qu, unwrapped_rule q o d d' /\ In d' (rules_in ds') /\ nth_error (g_rules g1) i = Some ru /\ nth_error (g_rules g2) i = Some qu /\
  rule_made g1 o1 d ru /\ rule_made g2 o2 d' qu.
Proof.
  intros Hd. destruct (forall2_nth _ _ _ UR _ _ Hd) as (d' & Hd' & HU). destruct (sd_low _ _ _ DE1 _ _ Hd) as (ru & Hr & RM). destruct (sd_low _ _ _ DE2 i d') as (qu & Hq & RM'); [rewrite rules_app; now apply nth_error_ext|].
  exists d', ru, qu. splits; auto. eapply nth_error_In; eauto.
Qed.
Lemma pr_new : exists qs qn, nth_error (g_rules g2) n = Some qs /\ nth_error (g_rules g2) (S n) = Some qn /\ rule_made g2 o2 (mkDr o [([q], false, Some al)] (Some cs) None) qs /\ rule_made g2 o2 (mkDr o [] (Some cn) None) qn.
Proof.
  destruct (sd_low _ _ _ DE2 n (mkDr o [([q], false, Some al)] (Some cs) None)) as (qs & H1 & R1); [rewrite rules_app, nth_error_app2; rewrite pr_len'; [|lia]; now rewrite Nat.sub_diag|].
  destruct (sd_low _ _ _ DE2 (S n) (mkDr o [] (Some cn) None)) as (qn & H2 & R2); [rewrite rules_app, nth_error_app2; rewrite pr_len'; [|lia]; now replace (S n - n) with 1 by lia|].
  exists qs, qn. auto.
Qed.
Lemma pr_same_elem d d' e : In d (rules_in ds1) -> unwrapped_rule q o d d' -> In d' (rules_in ds') -> In e (d_rhs d') -> e <> ([o], false, snd e) -> In e (d_rhs d).
Proof.
  intros Hd (_ & _ & HF) _ He Hn. destruct (GramFacts.forall2_in_r _ _ _ HF _ He) as (e1 & H1 & HU). destruct HU as [e0|a]; auto. now elim Hn.
Qed.
(** A symbol marked '?' in the second list is marked so in the first. *)
Lemma pr_opt2 Z X : In (Z, X) o2 -> exists m, at_name g2 Z m /\ m <> q /\ m <> o /\ exists a, has_elem ds1 ([m], true, a).
Proof.
  intros H. destruct (de_opt4 _ _ _ DE2 _ _ H) as (d & m & a & Hd & He & A). rewrite rules_app, in_app_iff in Hd.
  assert (Hd' : In d (rules_in ds')) by (destruct Hd as [Hd|[<-|[<-|[]]]]; auto; cbn in He; [destruct He as [He|[]]; discriminate|destruct He]).
  destruct (GramFacts.forall2_in_r _ _ _ UR _ Hd') as (d1 & H1 & HU). assert (He1 : In ([m], true, a) (d_rhs d1)) by (eapply pr_same_elem; eauto; discriminate).
  exists m. splits; auto.
  - intros ->. apply (NQ a). exists d. auto.
  - intros ->. destruct (pr_o _ H1) as [_ HO]. apply (HO _ He1). now left.
  - exists a, d1. auto.
Qed.
Lemma pr_opt1 Z X : In (Z, X) o1 -> exists m, at_name g1 Z m /\ m <> o /\ exists a, has_elem ds1 ([m], true, a).
Proof.
  intros H. destruct (de_opt4 _ _ _ DE1 _ _ H) as (d & m & a & Hd & He & A). exists m. splits; auto; [|exists a, d; auto]. intros ->. destruct (pr_o _ Hd) as [_ HO]. apply (HO _ He). now left.
Qed.
(** and a symbol marked '?' in the first list is, unless it is [q], marked so in the second. *)
Lemma pr_has1 m a : has_elem ds1 ([m], true, a) -> exists Z X, In (Z, X) o1 /\ at_name g1 Z m.
Proof.
  intros (d & Hd & He). apply In_nth_error in Hd as [i Hi]. destruct (sd_low _ _ _ DE1 _ _ Hi) as (ru & _ & RM). destruct (GramFacts.forall2_in_l _ _ _ (rm_rhs _ _ _ _ RM) _ He) as (X & _ & _ & Z & HZ & A). eauto.
Qed.
Lemma pr_has2 m a : has_elem ds1 ([m], true, a) -> m <> q -> exists Z X, In (Z, X) o2 /\ at_name g2 Z m.
Proof.
  intros (d & Hd & He) Hm. apply In_nth_error in Hd as [i Hi]. destruct (pr_user _ _ Hi) as (d' & ru & qu & (_ & _ & HF) & _ & _ & _ & _ & RM). destruct (GramFacts.forall2_in_l _ _ _ HF _ He) as (e' & He' & HU). inversion HU; subst; [|contradiction].
  destruct (GramFacts.forall2_in_l _ _ _ (rm_rhs _ _ _ _ RM) _ He') as (X & _ & _ & Z & HZ & A). eauto.
Qed.

Let NB1 : False -> forall Z X, In (Z, X) o1 -> ~ at_name g1 Z q. Proof. intros []. Qed.
Let NB2 : True -> forall Z X, In (Z, X) o2 -> ~ at_name g2 Z q.
Proof. intros _ Z X H A. destruct (pr_opt2 _ _ H) as (m & A' & Hm & _). exact (Hm (at_fun _ _ _ _ A' A)). Qed.
Let HB2 : n <= List.length (rules_in ds2). Proof. rewrite pr_len2. lia. Qed.
Let HW2 : True -> List.length (rules_in ds2) = S (S n). Proof. intros _. apply pr_len2. Qed.
Let HW1 : False -> n = S (S n). Proof. intros []. Qed.

Lemma os_name X Y m : known m -> m <> o -> at_name g1 X m -> at_name g2 Y m -> osym X Y.
Proof. intros. exists (LName m). split; constructor; auto. Qed.
Lemma os_elem i ru qu d e e' X Y : i < n -> nth_error (g_rules g1) i = Some ru -> nth_error (g_rules g2) i = Some qu -> nth_error (map fst (r_rhs ru)) d = Some X -> nth_error (map fst (r_rhs qu)) d = Some Y ->
  unwrapped q o e e' -> ~ In o (fst (fst e)) -> elem_sym g1 o1 e X -> elem_sym g2 o2 e' Y -> osym X Y.
Proof.
  intros Hi Hr Hq HX HY HU HO E1 E2. destruct HU as [e|a].
  - destruct e as [[[|x [|y l]] b] a]; [destruct E1| |].
    + cbn in HO. destruct E1 as [Hx E1]. destruct E2 as [_ E2]. destruct b; [|apply os_name with (m := x); auto; now right].
      destruct E1 as (Z & HZ & AZ). destruct E2 as (Z' & HZ' & AZ'). exists (LOpt x). split; eapply lb_opt; eauto.
    + destruct E1 as (_ & B1 & _). destruct E2 as (_ & B2 & _). exists (LAnon i d). split; eapply lb_anon; eauto.
  - destruct E1 as [_ (Z & HZ & AZ)]. destruct E2 as [_ AY]. exists (LOpt q). split; [eapply lb_opt; eauto|now apply lb_new].
Qed.
Lemma os_members toks : Forall (fun n => upper n) toks -> forall l m, Forall2 (at_name g1) l toks -> Forall2 (at_name g2) m toks -> Forall2 osym l m.
Proof.
  induction 1 as [|x ts U HU IH]; intros l m H1 H2; inversion H1; subst; inversion H2; subst; constructor; auto. apply os_name with (m := x); auto; [now right; left|]. intros ->. exact (upper_lower _ U LO).
Qed.
Lemma os_kind X Y : osym X Y -> exists k1 k2, kind_at g1 X = Some k1 /\ kind_at g2 Y = Some k2 /\ kind_alike osym k1 k2.
Proof.
  pose proof (written_wf _ _ WR1) as W1. pose proof (written_wf _ _ WR2) as W2.
  intros (l & H1 & H2). destruct l as [m|m|r d].
  - inversion H1 as [m' Km Nm B1| | |]; subst. inversion H2 as [m' _ _ B2| | |]; subst. destruct Km as [->|[U|L]].
    + exists KTerm, KTerm. destruct (dollar_kind _ _ _ _ DE1 B1). destruct (dollar_kind _ _ _ _ DE2 B2). splits; auto. exact Logic.I.
    + pose proof (class_kind _ _ _ _ _ DE1 W1 B1 U) as C1. pose proof (class_kind _ _ _ _ _ DE2 W2 B2 U) as C2. rewrite EC in C2. destruct (class_of ds1 m) as [ns|].
      * destruct C1 as (l1 & K1 & E1 & M1). destruct C2 as (l2 & K2 & E2 & M2). exists (KMulti l1), (KMulti l2). splits; auto. cbn. apply (os_members ns).
        -- subst ns. apply Forall_forall. intros x Hx. apply in_map_iff in Hx as (y & <- & Hy). now apply M1.
        -- subst ns. clear -M1. induction l1; cbn; constructor; auto; [apply M1; now left|]. apply IHl1. intros x Hx. apply M1. now right.
        -- rewrite <- E2. clear -M2. induction l2; cbn; constructor; auto; [apply M2; now left|]. apply IHl2. intros x Hx. apply M2. now right.
      * exists KTerm, KTerm. splits; auto. exact Logic.I.
    + exists KNonTerm, KNonTerm. splits; [eapply lower_kind; eauto|eapply lower_kind; eauto|exact Logic.I].
  - exists KNonTerm, KNonTerm. splits; [eapply lab_opt_kind with (1 := DE1); eauto|eapply lab_opt_kind with (1 := DE2); eauto|exact Logic.I].
  - inversion H1 as [| | |r' ru d' B1 L1 Hr Hd]; subst. inversion H2 as [| | |r' qu d' B2 _ Hq Hd']; subst.
    destruct (nth_error (rules_in ds1) r) as [dr|] eqn:Ed; [|apply nth_error_None in Ed; lia]. destruct (pr_user _ _ Ed) as (dr' & ru' & qu' & (_ & _ & HF) & _ & Hr' & Hq' & RM1 & RM2).
    assert (ru' = ru) by congruence. assert (qu' = qu) by congruence. subst ru' qu'.
    destruct (forall2_nth _ _ _ (forall2_flip _ _ _ (rm_rhs _ _ _ _ RM1)) _ _ Hd) as (e & He & HE). destruct (forall2_nth _ _ _ (forall2_flip _ _ _ (rm_rhs _ _ _ _ RM2)) _ _ Hd') as (e' & He' & HE'). unfold flip in HE, HE'.
    destruct (forall2_nth _ _ _ HF _ _ He) as (e2 & He2 & HU). assert (e2 = e') by congruence. subst e2.
    destruct (anon_elem _ _ _ _ _ DE1 HE B1) as (toks & a & b & l & -> & L & HUp & HK & HL). inversion HU; subst; [|cbn in L; lia].
    destruct (anon_elem _ _ _ _ _ DE2 HE' B2) as (toks' & a' & b' & l' & E & _ & _ & HK' & HL'). injection E as <- <- <-. exists (KMulti l), (KMulti l'). splits; auto. cbn. eapply os_members; eauto.
Qed.
Lemma or_alike r s : orule r s -> exists ru qu, nth_error (g_rules g1) r = Some ru /\ nth_error (g_rules g2) s = Some qu /\ made_alike osym ru qu.
Proof.
  intros (l & H1 & H2).
  assert (HP : forall ru qu, nth_error (g_rules g1) r = Some ru -> nth_error (g_rules g2) s = Some qu -> r_prec qu = r_prec ru).
  { intros ru qu Hr Hq. rewrite (no_rule_prec _ _ _ DE1 A1 _ _ Hr), (no_rule_prec _ _ _ DE2 A2 _ _ Hq). reflexivity. }
  destruct l as [i|m e].
  - inversion H1 as [r' L| | |]; subst. inversion H2 as [r' _| | |]; subst.
    destruct (nth_error (rules_in ds1) i) as [d|] eqn:Ed; [|apply nth_error_None in Ed; lia]. destruct (pr_user _ _ Ed) as (d' & ru & qu & (EL & _ & HF) & _ & Hr & Hq & RM1 & RM2).
    destruct (pr_o d) as [N1 N2]; [eapply nth_error_In; eauto|]. exists ru, qu. splits; auto. constructor; auto.
    + apply os_name with (m := d_lhs d); auto; [right; right; apply RM1|apply RM1|rewrite <- EL; apply RM2].
    + apply nth_forall2; [rewrite <- (forall2_lt _ _ _ (rm_rhs _ _ _ _ RM1)), <- (forall2_lt _ _ _ (rm_rhs _ _ _ _ RM2)); exact (forall2_lt _ _ _ HF)|].
      intros k X Y HX HY. destruct (forall2_nth _ _ _ (forall2_flip _ _ _ (rm_rhs _ _ _ _ RM1)) _ _ HX) as (e & He & HE). destruct (forall2_nth _ _ _ (forall2_flip _ _ _ (rm_rhs _ _ _ _ RM2)) _ _ HY) as (e' & He' & HE'). unfold flip in HE, HE'.
      destruct (forall2_nth _ _ _ HF _ _ He) as (e2 & He2 & HU). assert (e2 = e') by congruence. subst e2. apply (os_elem i ru qu k e e'); auto. apply N2. eapply nth_error_In; eauto.
  - inversion H1 as [|j e' Z X m' Hj He B1| |]; subst; [|contradiction|contradiction]. pose proof (nth_error_In _ _ Hj) as HI. pose proof (sd_opt _ _ _ DE1 _ _ _ Hj He) as R1.
    destruct (opt_ne _ _ _ DE1 _ _ _ HI B1) as [Nm Um]. assert (Mo : m <> o) by (destruct (pr_opt1 _ _ HI) as (m2 & B2 & Ho & _); now rewrite <- (at_fun _ _ _ _ B2 B1)).
    assert (HZ : forall Z', at_name g2 Z' m -> osym Z Z') by (intros Z' B2; apply os_name with (m := m); auto; now right).
    assert (HX : forall Y, lab2 Y (LOpt m) -> osym X Y) by (intros Y HY; exists (LOpt m); split; auto; eapply lb_opt; eauto).
    inversion H2 as [|j' e' Z' Y m' Hj' _ B2| |]; subst.
    + pose proof (sd_opt _ _ _ DE2 _ _ _ Hj' He) as R2. assert (HY : osym X Y) by (apply HX; eapply lb_opt; eauto; eapply nth_error_In; eauto). specialize (HZ _ B2).
      destruct e as [|[|e]]; [| |lia]; cbn [nth_error opt_made] in R1, R2; do 2 eexists; splits; eauto; constructor; cbn; auto; apply (HP _ _ R1 R2).
    + destruct pr_new as (qs & qn & N1 & N2 & M1 & M2). cbn [nth_error opt_made] in R1. do 2 eexists. splits; eauto. constructor; [apply HX, lb_new; auto; apply M1| |apply (HP _ _ R1 N1)].
      pose proof (rm_rhs _ _ _ _ M1) as RH. cbn [d_rhs] in RH. inversion RH as [|x y l l' HE HR]; subst. inversion HR; subst. cbn. constructor; auto. apply HZ, HE.
    + destruct pr_new as (qs & qn & N1 & N2 & M1 & M2). cbn [nth_error opt_made] in R1. do 2 eexists. splits; eauto. constructor; [apply HX, lb_new; auto; apply M2| |apply (HP _ _ R1 N2)].
      pose proof (rm_rhs _ _ _ _ M2) as RH. cbn [d_rhs] in RH. inversion RH. cbn. constructor.
Qed.
Theorem opt_iso : iso g1 g2 osym orule.
Proof.
  pose proof (written_wf _ _ WR1) as W1. pose proof (written_wf _ _ WR2) as W2. constructor.
  - intros X Y Y' (l & H1 & H2) (l' & H1' & H2'). rewrite (lab_fun ds1 g1 o1 q o n False DE1 WR1 LO _ _ _ H1' H1) in H2'. exact (lab_inj ds2 g2 o2 q o n True DE2 LO NB2 _ _ _ H2 H2').
  - intros X X' Y (l & H1 & H2) (l' & H1' & H2'). rewrite (lab_fun ds2 g2 o2 q o n True DE2 WR2 LO _ _ _ H2' H2) in H1'. exact (lab_inj ds1 g1 o1 q o n False DE1 LO NB1 _ _ _ H1 H1').
  - intros r s s' (l & H1 & H2) (l' & H1' & H2'). rewrite (rlab_fun ds1 g1 o1 q n False (le_n _) HW1 _ _ _ H1' H1) in H2'. exact (rlab_inj ds2 g2 o2 q n True DE2 NB2 _ _ _ H2 H2').
  - intros r r' s (l & H1 & H2) (l' & H1' & H2'). rewrite (rlab_fun ds2 g2 o2 q n True HB2 HW2 _ _ _ H2' H2) in H1'. exact (rlab_inj ds1 g1 o1 q n False DE1 NB1 _ _ _ H1 H1').
  - apply os_name with (m := "$"); [now left| |apply DE1|apply DE2]. intros E. rewrite <- E in LO. discriminate.
  - destruct (de_start _ _ _ DE1) as (s & E1 & B1 & L1). destruct (de_start _ _ _ DE2) as (s' & E2 & B2 & _). rewrite ES, E1 in E2. injection E2 as <-.
    apply os_name with (m := s); auto; [now right; right|]. intros ->. apply NM. now apply start_mentioned.
  - exact os_kind.
  - intros X Y _. now rewrite (no_sym_prec _ _ _ DE1 A1), (no_sym_prec _ _ _ DE2 A2).
  - intros X Y H. destruct (os_kind _ _ H) as (k1 & k2 & K1 & K2 & K). rewrite <- (wg_term g1 W1 X (kind_lt _ _ _ K1)), <- (wg_term g2 W2 Y (kind_lt _ _ _ K2)), K1, K2.
    destruct k1, k2; cbn in K; try contradiction; split; congruence.
  - exact or_alike.
  - intros r L. destruct (sd_split _ _ _ DE1 r L) as [H|(j & e & [Z X] & Hj & He & ->)]; [exists r, (RUser r); split; now constructor|].
    pose proof (nth_error_In _ _ Hj) as HI. destruct (pr_opt1 _ _ HI) as (m & B & _ & a & Ha). destruct (string_dec m q) as [->|Hm].
    + destruct e as [|[|e]]; [exists (S n), (ROpt q 0)|exists n, (ROpt q 1)|lia]; (split; [eapply rb_opt; eauto|constructor; auto]).
    + destruct (pr_has2 _ _ Ha Hm) as (Z' & Y & HI' & B'). apply In_nth_error in HI' as [j' Hj']. exists (List.length (rules_in ds2) + (2 * j' + e)), (ROpt m e). split; eapply rb_opt; eauto.
  - intros s L. destruct (sd_split _ _ _ DE2 s L) as [H|(j & e & [Z X] & Hj & He & ->)].
    + rewrite pr_len2 in H. destruct (Nat.lt_ge_cases s n) as [Hs|Hs]; [exists s, (RUser s); split; now constructor|]. destruct OC as (a & Ha). destruct (pr_has1 _ _ Ha) as (Z & X & HI & B). apply In_nth_error in HI as [j Hj].
      assert (Hc : s = n \/ s = S n) by lia. destruct Hc as [-> | ->]; [exists (n + (2 * j + 1)), (ROpt q 1)|exists (n + (2 * j + 0)), (ROpt q 0)]; (split; [eapply rb_opt; eauto|constructor; auto]).
    + pose proof (nth_error_In _ _ Hj) as HI. destruct (pr_opt2 _ _ HI) as (m & B & Hm & _ & a & Ha). destruct (pr_has1 _ _ Ha) as (Z' & Y & HI' & B'). apply In_nth_error in HI' as [j' Hj'].
      exists (n + (2 * j' + e)), (ROpt m e). split; eapply rb_opt; eauto.
Qed.
End Pair.
