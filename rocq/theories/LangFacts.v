(** The language and the precedences of the built grammar, in terms of the declarations. *)
From Verif Require Import Base Syntax BaseFacts FrontEnd First States Actions Tables Runtime Spec WfGrammar FrontFacts DeclSpec DeclFacts PipeFacts BuildFacts GramFacts AbsFacts CleanFacts RefFacts.
Open Scope string_scope. Open Scope nat_scope. Open Scope list_scope.

(** No token class and no alternatives [A|B] list a token class. *)
Definition flat_decls (ds : list decl) : Prop :=
  (forall n ms m, class_of ds n = Some ms -> In m ms -> class_of ds m = None) /\
  (forall d ns o al, In d (rules_in ds) -> In (ns, o, al) (d_rhs d) -> 2 <= List.length ns -> forall m, In m ns -> class_of ds m = None).

(** The names whose precedence an element of a right-hand side may lend to its rule *)
Definition elem_names (ds : list decl) (e : rhs_elem) : list ident :=
  let '(ns, o, _) := e in
  match ns with
  | [n] => if (o : bool) then [] else match class_of ds n with Some ms => ms | None => [n] end
  | _ => ns
  end.
(** The precedence of a rule: that of the bracketed token, or else of the leftmost token of
    the right-hand side that has one. *)
Definition prec_of (ds : list decl) (d : drule) : option (nat * assoc) :=
  match d_prec d with Some p => assoc_of ds p | None => first_of (assoc_of ds) (flat_map (elem_names ds) (d_rhs d)) end.

Section Lang.
Context (ds : list decl) (g : grammar) (opts : list (nat * nat)).
Hypothesis DE : declared ds g opts.
Hypothesis W : wf_grammar g.

Lemma at_gname i n : at_name g i n -> gname g i = n.
Proof. intros (s & Hs & <-). unfold gname, gsym. now rewrite (nth_error_nth _ _ _ Hs). Qed.
Lemma gname_at i : i < List.length (g_syms g) -> at_name g i (gname g i).
Proof. intros H. exists (gsym g i). split; auto. unfold gsym. now apply nth_error_nth'. Qed.
Lemma at_lt i n : at_name g i n -> i < List.length (g_syms g).
Proof. intros (s & Hs & _). apply nth_error_Some. congruence. Qed.
Lemma at_kind i n : at_name g i n -> kind_at g i = Some (sy_kind (gsym g i)).
Proof. intros H. apply gsym_kind_at. eapply at_lt; eauto. Qed.
Lemma sym_decl i n : at_name g i n -> n <> "" -> sy_prec (gsym g i) = assoc_of ds n /\
  option_map (gname g) (sy_fb (gsym g i)) = fallback_of ds n /\ members g (sy_kind (gsym g i)) = class_of ds n.
Proof.
  intros (s & Hs & <-) Hn. unfold gsym at 1. rewrite (nth_error_nth _ _ _ Hs). pose proof (de_sym _ _ _ DE _ _ Hs Hn) as H. unfold gsym. rewrite !(nth_error_nth _ _ _ Hs). exact H.
Qed.
Lemma upper_nonempty n : upper n -> n <> "". Proof. intros H ->. now apply upper_empty in H. Qed.
Lemma lower_nonempty n : lower n -> n <> "". Proof. intros H ->. discriminate. Qed.
Lemma upper_lower n : upper n -> lower n -> False. Proof. intros H1 H2. eapply upper_not_lowish; eauto. now left. Qed.

Lemma upper_kind i n : at_name g i n -> upper n -> i <> 0 /\ sy_kind (gsym g i) <> KNonTerm.
Proof.
  intros (s & Hs & <-) U. unfold gsym. rewrite (nth_error_nth _ _ _ Hs).
  destruct (de_named _ _ _ DE _ _ Hs (upper_nonempty _ U)) as [(_ & E & _)|[(_ & H1 & H2)|[(L & _)|[((k & E) & _)|(_ & E & _)]]]]; auto.
  - rewrite E in U. now apply upper_dollar in U.
  - now destruct (upper_lower _ U L).
  - exfalso. eapply upper_not_lowish; [exact U|]. right. eauto.
  - rewrite E in U. now apply upper_default in U.
Qed.
Lemma lower_kind i n : at_name g i n -> lower n -> kind_at g i = Some KNonTerm.
Proof.
  intros (s & Hs & <-) L. unfold kind_at. rewrite Hs. cbn. f_equal.
  destruct (de_named _ _ _ DE _ _ Hs (lower_nonempty _ L)) as [(_ & E & _)|[(U & _)|[(_ & H)|[(_ & H)|(_ & _ & H)]]]]; auto.
  - rewrite E in L. discriminate.
  - now destruct (upper_lower _ U L).
Qed.
Lemma term_name a : 0 < a < g_nterm g -> at_name g a (gname g a) /\ upper (gname g a) /\ class_of ds (gname g a) = None.
Proof.
  intros [H1 H2]. assert (La : a < List.length (g_syms g)) by (pose proof (wg_dflt_range g W); lia).
  pose proof (gname_at a La) as Ha. split; auto. assert (Hk : kind_at g a = Some KTerm) by (apply (wg_term g W); auto).
  destruct Ha as (s & Hs & Es). unfold kind_at in Hk. rewrite Hs in Hk. injection Hk as Hk.
  destruct (string_dec (sy_name s) "") as [E0|Hne].
  - destruct (de_anon _ _ _ DE _ _ Hs E0) as (_ & _ & (ms & Hm) & _). congruence.
  - rewrite <- Es. destruct (de_sym _ _ _ DE _ _ Hs Hne) as (_ & _ & Hm). rewrite Hk in Hm. cbn in Hm. split; auto.
    destruct (de_named _ _ _ DE _ _ Hs Hne) as [(E & _)|[(U & _)|[(_ & E)|[(_ & E)|(_ & _ & E)]]]]; auto; try congruence. lia.
Qed.

(** ** The grammar is flat if the declarations are *)
Lemma named_term i n : at_name g i n -> upper n -> class_of ds n = None -> is_term g i.
Proof.
  intros Ha U Hc. unfold is_term. rewrite (at_kind _ _ Ha). f_equal. destruct (upper_kind _ _ Ha U) as [_ Hk]. destruct (sym_decl _ _ Ha (upper_nonempty _ U)) as (_ & _ & Hm).
  rewrite Hc in Hm. destruct (sy_kind (gsym g i)); try discriminate; auto. contradiction.
Qed.
Theorem decls_flat : flat_decls ds -> flat g.
Proof.
  intros [F1 F2] X ms m HX Hm. destruct (wg_multi g W _ _ _ HX Hm) as (Lm & _). pose proof (gname_at m Lm) as Am. pose proof (de_multi _ _ _ DE _ _ _ HX Hm) as U.
  apply (named_term m (gname g m)); auto.
  assert (LX : X < List.length (g_syms g)) by (unfold kind_at in HX; apply nth_error_Some; destruct (nth_error (g_syms g) X); [discriminate|discriminate HX]).
  pose proof (gname_at X LX) as AX. destruct (string_dec (gname g X) "") as [E|Hne].
  - destruct AX as (s & Hs & Es). rewrite E in Es. destruct (de_anon _ _ _ DE _ _ Hs Es) as (_ & _ & _ & d & e & Hd & He & HE).
    destruct e as [[ns o] al]. destruct ns as [|n1 [|n2 ns]]; [destruct HE| |].
    + destruct HE as [Hn HE]. exfalso. destruct o.
      * destruct HE as (Y & HY & _). destruct (de_opts _ _ _ DE _ _ HY) as (_ & k & Hk). apply at_gname in Hk. unfold gname in E, Hk. rewrite E in Hk. discriminate.
      * apply at_gname in HE. unfold gname in E, HE. rewrite E in HE. subst n1. destruct Hn as [Hn|Hn]; discriminate.
    + destruct HE as (_ & _ & ms' & HX' & HF). rewrite HX in HX'. injection HX' as <-. destruct (forall2_in_l _ _ _ HF _ Hm) as (n & Hn & Hmn). rewrite (at_gname _ _ Hmn).
      apply (F2 d (n1 :: n2 :: ns) o al); auto. simpl. lia.
  - destruct (sym_decl _ _ AX Hne) as (_ & _ & HM). apply kind_at_gsym in HX. rewrite HX in HM. cbn in HM. apply (F1 (gname g X) (map (gname g) ms)); auto. now apply in_map.
Qed.

(** ** Rule precedences *)
Lemma first_of_app {A B} (h : A -> option B) l1 l2 : first_of h (l1 ++ l2) = match first_of h l1 with Some b => Some b | None => first_of h l2 end.
Proof. induction l1 as [|a l1 IH]; cbn; auto. destruct (h a); auto. Qed.
Lemma first_some_of {A B} (h : A -> option B) l : first_some h l = first_of h l.
Proof. induction l as [|a l IH]; cbn; auto. Qed.
Lemma first_of_map {A B C} (h : B -> option C) (k : A -> B) l : first_of h (map k l) = first_of (fun a => h (k a)) l.
Proof. induction l as [|a l IH]; cbn; auto. destruct (h (k a)); auto. Qed.
Lemma first_of_ext {A B} (h h' : A -> option B) l : (forall a, In a l -> h a = h' a) -> first_of h l = first_of h' l.
Proof. induction l as [|a l IH]; cbn; auto. intros H. rewrite (H a) by auto. destruct (h' a); auto. Qed.

Hypothesis AU : forall n p, assoc_of ds n = Some p -> upper n.

Lemma assoc_opt k : assoc_of ds (optional_name k) = None.
Proof. destruct (assoc_of ds (optional_name k)) eqn:E; auto. apply AU in E. exfalso. eapply upper_not_lowish; [exact E|right; eauto]. Qed.
Lemma prec_at i n : at_name g i n -> n <> "" -> sy_prec (gsym g i) = assoc_of ds n.
Proof. intros H1 H2. now destruct (sym_decl _ _ H1 H2). Qed.
Lemma multi_prec ms ns : Forall2 (at_name g) ms ns -> Forall (fun n => upper n) ns -> first_some (fun x => sy_prec (gsym g x)) ms = first_of (assoc_of ds) ns.
Proof.
  induction 1 as [|m n ms ns Hm HF IH]; intros HU; [reflexivity|]. apply Forall_cons_iff in HU as [U HU]. cbn. rewrite (prec_at _ _ Hm (upper_nonempty _ U)), IH; auto.
Qed.
Lemma elem_prec e X : elem_sym g opts e X -> rhs_sym_prec g X = first_of (assoc_of ds) (elem_names ds e).
Proof.
  destruct e as [[ns o] al]. destruct ns as [|n [|n2 ns]]; intros H; [destruct H| |].
  - destruct H as [Hn H]. assert (Hne : n <> "") by (destruct Hn; [now apply upper_nonempty|now apply lower_nonempty]). destruct o.
    + destruct H as (Y & HY & _). destruct (de_opts _ _ _ DE _ _ HY) as (_ & k & Hk). unfold rhs_sym_prec. cbn.
      assert (Hp : sy_prec (gsym g X) = None) by (rewrite (prec_at _ _ Hk) by discriminate; apply assoc_opt).
      destruct Hk as (s & Hs & Es). unfold gsym in *. rewrite (nth_error_nth _ _ _ Hs) in *.
      assert (Hnn : sy_name s <> "") by (rewrite Es; discriminate).
      destruct (de_named _ _ _ DE _ _ Hs Hnn) as [(_ & E & _)|[(U & _)|[(L & K)|[(_ & K)|(_ & E & _)]]]].
      * rewrite Es in E. discriminate.
      * exfalso. rewrite Es in U. eapply upper_not_lowish; [exact U|right; eauto].
      * rewrite K. auto.
      * rewrite K. auto.
      * rewrite Es in E. discriminate.
    + cbn [elem_names]. destruct (sym_decl _ _ H Hne) as (Hp & _ & Hm). unfold rhs_sym_prec. destruct (class_of ds n) as [ms|]; destruct (sy_kind (gsym g X)) as [| |mi] eqn:Ek; try discriminate.
      * injection Hm as <-. rewrite first_some_of, first_of_map. apply first_of_ext. intros m Hin. assert (HX : kind_at g X = Some (KMulti mi)) by (rewrite (at_kind _ _ H); congruence).
        apply prec_at; [|apply upper_nonempty; eapply de_multi; eauto]. apply gname_at. now destruct (wg_multi g W _ _ _ HX Hin).
      * cbn. rewrite Hp. now destruct (assoc_of ds n).
      * cbn. rewrite Hp. now destruct (assoc_of ds n).
  - destruct H as (HU & _ & ms & HX & HF). apply kind_at_gsym in HX. unfold rhs_sym_prec. rewrite HX. cbn [elem_names]. now apply multi_prec.
Qed.
Theorem rule_prec_decl k d : nth_error (rules_in ds) k = Some d -> exists ru, nth_error (g_rules g) k = Some ru /\ rule_made g opts d ru /\ r_prec ru = prec_of ds d.
Proof.
  intros Hd. destruct (de_rules _ _ _ DE) as (rs & HR & HF).
  assert (H2 : exists ru, nth_error rs k = Some ru /\ rule_made g opts d ru).
  { clear HR. revert k Hd. induction HF as [|d0 r0 l m H0 HF IH]; intros k Hd; [destruct k; discriminate|]. destruct k as [|k]; cbn in *; [injection Hd as ->; eauto|auto]. }
  destruct H2 as (ru & Hru & RM). exists ru. splits; auto.
  - rewrite HR. now apply nth_error_ext.
  - rewrite (rm_prec _ _ _ _ RM). pose proof (rm_ps _ _ _ _ RM) as HP. unfold prec_of. destruct (d_prec d) as [p|], (r_precsym ru) as [ps|]; try contradiction.
    + destruct (string_dec p "") as [->|Hne]; [|now apply prec_at].
      destruct HP as (s & Hs & Es). destruct (de_anon _ _ _ DE _ _ Hs Es) as (Hp & _). unfold gsym. rewrite (nth_error_nth _ _ _ Hs), Hp.
      destruct (assoc_of ds "") eqn:E; auto. apply AU in E. now apply upper_empty in E.
    + pose proof (rm_rhs _ _ _ _ RM) as HE. rewrite first_some_of, <- (first_of_map (rhs_sym_prec g) fst). induction HE as [|e X es Xs He HE IH]; [reflexivity|].
      cbn [flat_map first_of]. rewrite first_of_app, (elem_prec _ _ He). destruct (first_of (assoc_of ds) (elem_names ds e)); auto.
Qed.

(** The grammar has no precedence if no token is given one. *)
Theorem decls_clean : (forall n, assoc_of ds n = None) -> clean g.
Proof.
  intros HN r. unfold grule. destruct (nth_error (g_rules g) r) as [ru|] eqn:Er; [|rewrite nth_overflow by (now apply nth_error_None); reflexivity].
  rewrite (nth_error_nth _ _ _ Er).
  assert (HP : forall X, sy_prec (gsym g X) = None).
  { intros X. destruct (Nat.lt_ge_cases X (List.length (g_syms g))) as [L|L]; [|unfold gsym; rewrite nth_overflow by auto; reflexivity].
    pose proof (gname_at X L) as Ax. destruct (string_dec (gname g X) "") as [E|Hne].
    - destruct Ax as (s & Hs & Es). rewrite E in Es. destruct (de_anon _ _ _ DE _ _ Hs Es) as (Hp & _). unfold gsym. now rewrite (nth_error_nth _ _ _ Hs).
    - rewrite (prec_at _ _ Ax Hne). apply HN. }
  assert (HQ : forall X, rhs_sym_prec g X = None).
  { intros X. unfold rhs_sym_prec. destruct (sy_kind (gsym g X)) as [| |ms]; auto. induction ms as [|m l IH]; cbn; auto. now rewrite HP. }
  destruct (de_rules _ _ _ DE) as (rs & HR & HF). apply nth_error_In in Er. rewrite HR in Er. apply in_app_iff in Er as [Er|Er].
  - destruct (forall2_in_r _ _ _ HF _ Er) as (d & _ & RM). rewrite (rm_prec _ _ _ _ RM). destruct (r_precsym ru); auto.
    induction (r_rhs ru) as [|p l IH]; cbn; auto. now rewrite HQ.
  - apply in_flat_map in Er as ([Y X] & _ & Hr). destruct Hr as [<-|[<-|[]]]; cbn; auto.
Qed.

(** No %nonassoc token has a %fallback. *)
Theorem decls_ties : (forall n l, assoc_of ds n = Some (l, ANone) -> fallback_of ds n = None) -> ties_kept g.
Proof.
  intros H a l Hp. destruct (Nat.lt_ge_cases a (List.length (g_syms g))) as [L|L]; [|unfold gsym; rewrite nth_overflow by auto; reflexivity].
  pose proof (gname_at a L) as Ax. destruct (string_dec (gname g a) "") as [E|Hne].
  - destruct Ax as (s & Hs & Es). rewrite E in Es. destruct (de_anon _ _ _ DE _ _ Hs Es) as (_ & Hf & _). unfold gsym. now rewrite (nth_error_nth _ _ _ Hs).
  - destruct (sym_decl _ _ Ax Hne) as (E1 & E2 & _). rewrite Hp in E1. rewrite (H _ l) in E2 by auto. now destruct (sy_fb (gsym g a)).
Qed.
Theorem decls_wild : wildcard_of ds = None -> g_wild g = None.
Proof. intros H. pose proof (de_wild _ _ _ DE) as D. rewrite H in D. now destruct (g_wild g). Qed.

(** ** What tokens stand for *)
Lemma falls_down a b : falls_to g a b -> gname g a <> "" -> falls ds (gname g a) (gname g b).
Proof.
  intros H Hne. induction H as [|b s c H IH Hs Hf]; [constructor|].
  assert (Ab : at_name g b (gname g b)) by (apply gname_at, nth_error_Some; congruence).
  assert (Eb : gsym g b = s) by (unfold gsym; now rewrite (nth_error_nth _ _ _ Hs)).
  destruct (string_dec (gname g b) "") as [E|Hb].
  - destruct Ab as (s' & Hs' & Es'). rewrite E in Es'. destruct (de_anon _ _ _ DE _ _ Hs' Es') as (_ & Hf' & _). congruence.
  - destruct (sym_decl _ _ Ab Hb) as (_ & E2 & _). rewrite Eb, Hf in E2. cbn in E2. eapply fl_step; [exact IH|]. now rewrite <- E2.
Qed.
Lemma falls_up a n : gname g a <> "" -> a < List.length (g_syms g) -> falls ds (gname g a) n -> exists b, at_name g b n /\ falls_to g a b /\ n <> "".
Proof.
  intros Hne La. remember (gname g a) as na eqn:Ena. intros H. induction H as [|n c H IH Hf].
  - exists a. splits; [subst; now apply gname_at|constructor|auto].
  - destruct IH as (b & Ab & Fb & Hb); auto. destruct (sym_decl _ _ Ab Hb) as (_ & E2 & _). rewrite Hf in E2. destruct (sy_fb (gsym g b)) as [c'|] eqn:Ef; [|discriminate]. injection E2 as <-.
    destruct Ab as (s & Hs & Es). assert (Eb : gsym g b = s) by (unfold gsym; now rewrite (nth_error_nth _ _ _ Hs)). rewrite Eb in Ef.
    destruct (wg_fb g W _ _ _ Hs Ef) as (_ & Lc & _ & Hk & _). exists c'. splits.
    + now apply gname_at.
    + eapply falls_step; eauto.
    + apply upper_nonempty. eapply de_fbname; eauto.
Qed.
Lemma stands_down b X n : member g b X -> at_name g X n -> upper n -> stands ds (gname g b) n.
Proof.
  intros HM HX U. split; [exact U|]. destruct (sym_decl _ _ HX (upper_nonempty _ U)) as (_ & _ & E). destruct HM as [[-> Hb]|(ms & Hk & Hin)].
  - apply kind_at_gsym in Hb. rewrite Hb in E. cbn in E. rewrite <- E. now apply at_gname.
  - apply kind_at_gsym in Hk. rewrite Hk in E. cbn in E. rewrite <- E. now apply in_map.
Qed.
Lemma stands_up b X n m : stands ds m n -> at_name g X n -> at_name g b m -> member g b X.
Proof.
  intros [U HS] HX Hb. destruct (sym_decl _ _ HX (upper_nonempty _ U)) as (_ & _ & E). destruct (class_of ds n) as [ms|] eqn:Ec.
  - destruct (sy_kind (gsym g X)) as [| |mi] eqn:Ek; try discriminate. injection E as <-. right. exists mi. assert (HK : kind_at g X = Some (KMulti mi)) by (rewrite (at_kind _ _ HX); congruence). split; auto.
    apply in_map_iff in HS as (c & Ec' & Hc). pose proof (de_multi _ _ _ DE _ _ _ HK Hc) as Uc. destruct (wg_multi g W _ _ _ HK Hc) as (Lc & _).
    rewrite (de_uniq _ _ _ DE b c m); auto; [rewrite <- Ec'; now apply gname_at|]. rewrite <- Ec'. now apply upper_nonempty.
  - subst m. left. rewrite (de_uniq _ _ _ DE b X n) by (auto; now apply upper_nonempty). split; auto. eapply named_term; eauto.
Qed.
Lemma member_low b X n : member g b X -> at_name g X n -> lower n -> False.
Proof.
  intros HM HX L. pose proof (lower_kind _ _ HX L) as HK. destruct HM as [[-> Hb]|(ms & Hk & _)]; [unfold is_term in Hb|]; congruence.
Qed.
Lemma tok_down a X n : tok_match g a X -> gname g a <> "" -> at_name g X n -> upper n -> exists b, taken ds (gname g a) b /\ stands ds b n.
Proof.
  intros [(b & Hf & HM)|(w & Hw & HM)] Hne HX U.
  - exists (gname g b). split; [left; now apply falls_down|]. eapply stands_down; eauto.
  - exists (gname g w). split; [|eapply stands_down; eauto]. right. pose proof (de_wild _ _ _ DE) as D. rewrite Hw in D. destruct (wildcard_of ds) as [x|]; [|destruct D]. f_equal. symmetry. now apply at_gname.
Qed.
Lemma taken_up a b : gname g a <> "" -> a < List.length (g_syms g) -> taken ds (gname g a) b ->
  exists B, at_name g B b /\ forall X, member g B X -> tok_match g a X.
Proof.
  intros Hne La [H|H].
  - destruct (falls_up a b Hne La H) as (B & AB & FB & _). exists B. split; auto. intros X HM. left. eauto.
  - pose proof (de_wild _ _ _ DE) as D. rewrite H in D. destruct (g_wild g) as [w|] eqn:Ew; [|destruct D]. exists w. split; auto. intros X HM. right. eauto.
Qed.
(** Names of optional symbols are not identifiers. *)
Lemma opt_not_id k n : (upper n \/ lower n) -> n <> optional_name k.
Proof. intros [H|H] ->; [eapply upper_not_lowish; [exact H|right; eauto]|discriminate]. Qed.

Notation word := (fun ts => map (fun p => gname g (fst p)) ts).
Definition toks_ok {M} (ts : list (nat * M)) : Prop := forall a m, In (a, m) ts -> 0 < a < g_nterm g.
Lemma toks_app {M} (l1 l2 : list (nat * M)) : toks_ok (l1 ++ l2) -> toks_ok l1 /\ toks_ok l2.
Proof. intros H. split; intros a m Hin; apply (H a m), in_app_iff; auto. Qed.

(** The declared right-hand side of a rule of [g], or the optional symbol it belongs to *)
Lemma rule_cases r ru : nth_error (g_rules g) r = Some ru ->
  (exists d, In d (rules_in ds) /\ rule_made g opts d ru) \/
  exists Y X, In (Y, X) opts /\ r_lhs ru = X /\ (map fst (r_rhs ru) = [] \/ map fst (r_rhs ru) = [Y]).
Proof.
  intros H. apply nth_error_In in H. destruct (de_rules _ _ _ DE) as (rs & HR & HF). rewrite HR in H. apply in_app_iff in H as [H|H].
  - left. destruct (forall2_in_r _ _ _ HF _ H) as (d & Hd & RM). eauto.
  - right. apply in_flat_map in H as ([Y X] & Hin & Hr). exists Y, X. destruct Hr as [<-|[<-|[]]]; cbn; auto.
Qed.
Lemma opt_uniq Y Y' X : In (Y, X) opts -> In (Y', X) opts -> Y = Y'.
Proof.
  intros H H'. pose proof (de_opt2 _ _ _ DE) as ND. clear -H H' ND. induction opts as [|[y x] l IH]; [destruct H|]. cbn in ND. inversion ND as [|? ? Hni ND']; subst.
  destruct H as [E|H], H' as [E'|H']; try congruence; auto.
  - injection E as -> ->. exfalso. apply Hni. apply in_map_iff. exists (Y', X). auto.
  - injection E' as -> ->. exfalso. apply Hni. apply in_map_iff. exists (Y, X). auto.
Qed.

Lemma opt_nonterm k Y : at_name g Y (optional_name k) -> kind_at g Y = Some KNonTerm.
Proof.
  intros (s & Hs & Es). unfold kind_at. rewrite Hs. cbn. f_equal. assert (Hnn : sy_name s <> "") by (rewrite Es; discriminate).
  destruct (de_named _ _ _ DE _ _ Hs Hnn) as [(_ & Ex & _)|[(U & _)|[(L & K)|[(_ & K)|(_ & Ex & _)]]]]; auto; try (rewrite Es in Ex; discriminate).
  exfalso. rewrite Es in U. eapply upper_not_lowish; [exact U|right; eauto].
Qed.
Lemma member_not_nonterm b Y : member g b Y -> kind_at g Y <> Some KNonTerm.
Proof. intros [[-> Hb]|(ms & Hk & _)]; [unfold is_term in Hb|]; congruence. Qed.

(** [mt] on symbols and [tk] on names agree. *)
Record linked (mt : nat -> nat -> Prop) (tk : ident -> ident -> Prop) : Prop := {
  lk_down : forall a Y, 0 < a < g_nterm g -> mt a Y -> exists B, member g B Y /\ tk (gname g a) (gname g B);
  lk_up : forall a b, 0 < a < g_nterm g -> tk (gname g a) b -> exists B, at_name g B b /\ forall Y, member g B Y -> mt a Y }.

Theorem tree_says mt tk (LK : linked mt tk) {M} :
  (forall X (t : tree M), derives g mt X t -> toks_ok (yield t) ->
     (forall n, at_name g X n -> upper n \/ lower n -> says ds tk n (word (yield t))) /\
     (forall e, elem_sym g opts e X -> elem ds tk e (word (yield t)))) /\
  (forall Xs (ts : list (tree M)), derives_all g mt Xs ts -> toks_ok (flat_map yield ts) ->
     (forall es, Forall2 (elem_sym g opts) es Xs -> elems ds tk es (word (flat_map yield ts))) /\
     forall X n, Xs = [X] -> at_name g X n -> upper n \/ lower n -> says ds tk n (word (flat_map yield ts))).
Proof.
  apply derives_both.
  - intros a m Y HM HO. destruct (lk_down _ _ LK a Y (HO a m (or_introl eq_refl)) HM) as (B & HB & Ht). cbn [yield map fst snd].
    assert (HS : forall k, at_name g Y k -> upper k \/ lower k -> says ds tk k [gname g a]).
    { intros k HY [U|L]; [|exfalso; eapply (member_not_nonterm B Y HB); eapply lower_kind; eauto].
      apply sa_tok with (b := gname g B); auto. eapply stands_down; eauto. }
    split; auto. intros [[ns o] al] He. destruct ns as [|k [|k2 ns]]; [destruct He| |].
    + destruct He as [Hk He]. destruct o; [|constructor; auto]. exfalso. destruct He as (Z & HZ & _). destruct (de_opts _ _ _ DE _ _ HZ) as (_ & j & Hj). now apply (member_not_nonterm B Y HB), (opt_nonterm j).
    + destruct He as (HU & HY & ms & HK & HF). apply el_alt with (b := gname g B); [simpl; lia|auto|].
      destruct HB as [[-> Hb]|(ms' & Hk & Hin)]; [unfold is_term in Hb; congruence|]. rewrite HK in Hk. injection Hk as <-. destruct (forall2_in_l _ _ _ HF _ Hin) as (y & Hy & Hb). now rewrite (at_gname _ _ Hb).
  - intros r ru ts Hr HD IH HO. destruct (IH HO) as [IH1 IH2]. cbn [yield] in *.
    destruct (rule_cases r ru Hr) as [(d & Hd & RM)|(Y & X & HY & EX & HR)].
    + pose proof (rm_lhs _ _ _ _ RM) as HL. pose proof (rm_low _ _ _ _ RM) as Low.
      assert (HS : forall n, at_name g (r_lhs ru) n -> upper n \/ lower n -> says ds tk n (word (flat_map yield ts))).
      { intros n Hn _. rewrite <- (at_gname _ _ Hn), (at_gname _ _ HL). constructor 2; auto. apply IH1. apply RM. }
      split; auto. intros [[ns o] al] He. destruct ns as [|n [|n2 ns]]; [destruct He| |].
      * destruct o.
        { exfalso. destruct He as (_ & Y & HY & _). destruct (de_opts _ _ _ DE _ _ HY) as (_ & k & Hk). apply (opt_not_id k (d_lhs d)); auto. rewrite <- (at_gname _ _ Hk). symmetry. now apply at_gname. }
        destruct He as [Hn He]. constructor. now apply HS.
      * exfalso. destruct He as (_ & Ha & _). apply at_gname in Ha, HL. rewrite Ha in HL. rewrite <- HL in Low. discriminate.
    + subst X. destruct (de_opts _ _ _ DE _ _ HY) as ((y & Ay & Hy) & k & Hk). split.
      * intros n Hn Hid. exfalso. apply (opt_not_id k n Hid). rewrite <- (at_gname _ _ Hk). symmetry. now apply at_gname.
      * intros [[ns o] al] He. destruct ns as [|n [|n2 ns]]; [destruct He| |].
        { destruct He as [Hn He]. destruct o; [|exfalso; apply (opt_not_id k n Hn); rewrite <- (at_gname _ _ Hk); symmetry; now apply at_gname].
          destruct He as (Y' & HY' & Hn'). assert (Y' = Y) by (eapply opt_uniq; eauto). subst Y'. destruct HR as [HR|HR]; rewrite HR in *.
          - inversion HD; subst. cbn. constructor.
          - constructor. eapply IH2; eauto. }
        { exfalso. destruct He as (_ & Ha & _). apply at_gname in Ha, Hk. rewrite Ha in Hk. discriminate. }
  - intros _. split; [|discriminate]. intros es HF. inversion HF; subst. constructor.
  - intros X t Xs ts Ht IHt Hts IHts HO. cbn in HO. apply toks_app in HO as [HO1 HO2]. destruct (IHt HO1) as [IH1 IH2], (IHts HO2) as [IH3 IH4]. split.
    + intros es HF. inversion HF as [|e X' es' Xs' He HF']; subst. cbn. rewrite map_app. constructor; auto.
    + intros Z n E Hn Hid. injection E as -> ->. inversion Hts; subst. cbn. rewrite app_nil_r. auto.
Qed.

Theorem says_tree mt tk (LK : linked mt tk) {M} :
  (forall n w, says ds tk n w -> forall X (ts : list (nat * M)), at_name g X n -> word ts = w -> toks_ok ts ->
     exists t, derives g mt X t /\ yield t = ts) /\
  (forall e w, elem ds tk e w -> forall X (ts : list (nat * M)), elem_sym g opts e X -> word ts = w -> toks_ok ts ->
     exists t, derives g mt X t /\ yield t = ts) /\
  (forall es w, elems ds tk es w -> forall Xs (ts : list (nat * M)), Forall2 (elem_sym g opts) es Xs -> word ts = w -> toks_ok ts ->
     exists us, derives_all g mt Xs us /\ flat_map yield us = ts).
Proof.
  assert (H1 : forall a (ts : list (nat * M)), word ts = [a] -> toks_ok ts -> exists x m, ts = [(x, m)] /\ gname g x = a /\ 0 < x < g_nterm g).
  { intros a ts Hw HO. destruct ts as [|[x m] [|? ?]]; try discriminate. injection Hw as Hw. exists x, m. pose proof (HO x m (or_introl eq_refl)). splits; auto; lia. }
  assert (HR : forall d, In d (rules_in ds) -> exists r ru, nth_error (g_rules g) r = Some ru /\ rule_made g opts d ru).
  { intros d Hd. destruct (de_rules _ _ _ DE) as (rs & HRs & HF). destruct (forall2_in_l _ _ _ HF _ Hd) as (ru & Hru & RM). apply In_nth_error in Hru as [r Hr]. exists r, ru. split; auto. rewrite HRs. now apply nth_error_ext. }
  assert (HO : forall Y X (ts : list (tree M)), In (Y, X) opts -> ts = [] \/ (exists t, ts = [t] /\ derives g mt Y t) -> exists r, derives g mt X (TNode r ts)).
  { intros Y X ts HY Hts. destruct (de_rules _ _ _ DE) as (rs & HRs & _).
    assert (Hin : forall ru, In ru (opt_made g (Y, X)) -> exists r, nth_error (g_rules g) r = Some ru).
    { intros ru Hru. apply In_nth_error. rewrite HRs. apply in_app_iff. right. apply in_flat_map. eauto. }
    destruct Hts as [->|(t & -> & Ht)].
    - destruct (Hin (mkRule X [] COptNone None None)) as [r Hr]; [left; reflexivity|]. exists r. apply (d_node g mt r _ [] Hr). constructor.
    - destruct (Hin (mkRule X [(Y, true)] COptSome None (rhs_sym_prec g Y))) as [r Hr]; [right; left; reflexivity|]. exists r. apply (d_node g mt r _ [t] Hr). cbn. constructor; [auto|constructor]. }
  apply says_both.
  - intros a b n Ht Hs X ts HX Hw Hok. destruct (H1 a ts Hw Hok) as (x & m & -> & <- & Hx). exists (TTok x m). split; auto. constructor.
    destruct (lk_up _ _ LK x b Hx Ht) as (B & AB & HB). apply HB. eapply stands_up; eauto.
  - intros d w Hd _ IH X ts HX Hw Hok. destruct (HR d Hd) as (r & ru & Hr & RM). destruct (IH (map fst (r_rhs ru)) ts) as (us & Hus & Hy); auto; [apply RM|].
    exists (TNode r us). split; auto. rewrite (de_uniq _ _ _ DE X (r_lhs ru) (d_lhs d)); auto; [|apply RM|apply lower_nonempty, (rm_low _ _ _ _ RM)]. econstructor; eauto.
  - intros n al w _ IH X ts [Hn HX] Hw Hok. eauto.
  - intros n al X ts (Hn & Y & HY & HYn) Hw Hok. destruct ts as [|]; [|discriminate]. destruct (HO Y X [] HY) as [r Hr]; auto. eauto.
  - intros n al w _ IH X ts (Hn & Y & HY & HYn) Hw Hok. destruct (IH Y ts HYn Hw Hok) as (t & Ht & Hy). destruct (HO Y X [t] HY) as [r Hr]; eauto. exists (TNode r [t]). split; auto. cbn. now rewrite app_nil_r.
  - intros ns o al a b Hl Ht Hb X ts He Hw Hok. destruct (H1 a ts Hw Hok) as (x & m & -> & <- & Hx). exists (TTok x m). split; auto. constructor.
    destruct (lk_up _ _ LK x b Hx Ht) as (B & AB & HB). apply HB. destruct ns as [|n1 [|n2 ns]]; try (simpl in Hl; lia). destruct He as (HU & _ & ms & HK & HF). right. exists ms. split; auto.
    destruct (forall2_in_r _ _ _ HF _ Hb) as (c & Hc & Ac). rewrite (de_uniq _ _ _ DE B c b); auto. rewrite Forall_forall in HU. now apply upper_nonempty, HU.
  - intros Xs ts HF Hw _. inversion HF; subst. destruct ts; [|discriminate]. exists []. split; auto. constructor.
  - intros e es w1 w2 _ IH1 _ IH2 Xs ts HF Hw Hok. inversion HF as [|e' X es' Xs' He HF']; subst. apply map_eq_app in Hw as (ts1 & ts2 & -> & E1 & E2). apply toks_app in Hok as [O1 O2].
    destruct (IH1 X ts1 He E1 O1) as (t & Ht & Hy). destruct (IH2 Xs' ts2 HF' E2 O2) as (us & Hus & Hys). exists (t :: us). split; [constructor; auto|]. cbn. now rewrite Hy, Hys.
Qed.

Theorem linked_taken : linked (tok_match g) (taken ds).
Proof.
  constructor.
  - intros a Y Ha HM. destruct (term_name a Ha) as (Aa & Ua & _). pose proof (upper_nonempty _ Ua) as Hne. destruct HM as [(b & Hf & HM)|(w & Hw & HM)].
    + exists b. split; auto. left. now apply falls_down.
    + exists w. split; auto. right. pose proof (de_wild _ _ _ DE) as D. rewrite Hw in D. destruct (wildcard_of ds) as [x|]; [|destruct D]. f_equal. symmetry. now apply at_gname.
  - intros a b Ha Ht. destruct (term_name a Ha) as (Aa & Ua & _). apply taken_up; auto; [now apply upper_nonempty|eapply at_lt; eauto].
Qed.
Theorem linked_direct : linked (direct g) eq.
Proof.
  constructor.
  - intros a Y Ha [_ HM]. eauto.
  - intros a b Ha <-. exists a. destruct (term_name a Ha) as (Aa & _). split; auto. intros Y HY. split; auto. apply (wg_term g W); [eapply at_lt; eauto|lia].
Qed.

(** The language of the grammar is the language of the declarations. *)
Theorem sentence_says {M} (ts : list (nat * M)) : toks_ok ts ->
  ((exists t, sentence g t ts) <-> exists n, start_of ds = Some n /\ says ds (taken ds) n (word ts)).
Proof.
  intros Hok. destruct (de_start _ _ _ DE) as (n & Hn & HS & L). split.
  - intros (t & Hd & <-). exists n. split; auto. apply (proj1 (tree_says _ _ linked_taken) _ _ Hd Hok); auto.
  - intros (n' & Hn' & Hs). assert (n' = n) by congruence. subst n'. destruct (proj1 (says_tree _ _ linked_taken) _ _ Hs (g_start g) ts HS eq_refl Hok) as (t & Ht & Hy). exists t. split; auto.
Qed.
End Lang.
