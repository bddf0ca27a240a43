(** Declarations in another order are accepted alike and mean the same (C46). *)
From Coq Require Import Permutation.
From Verif Require Import Base Syntax BaseFacts FrontEnd First States Actions Tables Runtime User Spec WfGrammar FrontFacts DeclSpec DeclFacts DeclMore PipeFacts BuildFacts GramFacts LangFacts
  PanicFacts TypeFacts TypeDecl ActFacts FaultSpec LalrFacts Main Claims3 Claims5 Claims6 Claims13 OrderSpec OrderFacts IsoFacts OrderIso IsoRun OrderRun.
Open Scope string_scope. Open Scope nat_scope. Open Scope list_scope.

Lemma fop_at {A} (R : A -> A -> Prop) l : ForallOrdPairs R l -> forall i j a b, i < j -> nth_error l i = Some a -> nth_error l j = Some b -> R a b.
Proof.
  induction 1 as [|x l HF HO IH]; intros [|i] [|j] a b L Ha Hb; try lia; try discriminate.
  - cbn in Ha, Hb. injection Ha as <-. apply nth_error_In in Hb. now apply (proj1 (Forall_forall _ _) HF).
  - cbn in Ha, Hb. apply (IH i j); auto. lia.
Qed.
Lemma filter_mid {A} (p : A -> bool) a : forall l x y, filter p l = x ++ a :: y -> exists k1 k2, l = k1 ++ a :: k2 /\ filter p k1 = x.
Proof.
  induction l as [|b l IH]; intros x y E; [destruct x; discriminate|]. cbn in E. destruct (p b) eqn:Eb.
  - destruct x as [|c x]; cbn in E; injection E as -> E; [exists [], l; auto|]. destruct (IH _ _ E) as (k1 & k2 & -> & <-). exists (c :: k1), k2. split; auto. cbn. now rewrite Eb.
  - destruct (IH _ _ E) as (k1 & k2 & -> & <-). exists (b :: k1), k2. split; auto. cbn. now rewrite Eb.
Qed.
Lemma falls_then ds a b c : fallback_of ds a = Some b -> falls ds b c -> falls ds a c.
Proof. intros H. induction 1; [eapply fl_step; eauto; constructor|eapply fl_step; eauto]. Qed.
Lemma fallback_lists ds n c : fallback_of ds n = Some c -> exists ids, In (DFallback c ids) ds /\ In n ids.
Proof.
  intros H. induction ds as [|d ds IH]; [discriminate|]. change (match (match d with DFallback fb ids => if listed n ids then Some fb else None | _ => None end) with Some b => Some b | None => fallback_of ds n end = Some c) in H.
  assert (HR : fallback_of ds n = Some c -> exists ids, In (DFallback c ids) (d :: ds) /\ In n ids) by (intros H'; destruct (IH H') as (ids & H1 & H2); exists ids; split; auto; now right).
  destruct d; auto. destruct (listed n ids) eqn:El; auto. injection H as <-. exists ids. split; [now left|]. unfold listed in El. apply existsb_exists in El as (x & Hx & Ex). now apply String.eqb_eq in Ex as <-.
Qed.
Lemma listed_in n ids : In n ids -> listed n ids = true.
Proof. intros H. unfold listed. apply existsb_exists. exists n. split; auto. apply String.eqb_refl. Qed.
Lemma fallback_some ds fb ids n : In (DFallback fb ids) ds -> In n ids -> fallback_of ds n <> None.
Proof.
  intros H Hn. induction ds as [|d ds IH]; [destruct H|]. unfold fallback_of in *. cbn [DeclSpec.first_of]. destruct H as [->|H]; [rewrite (listed_in _ _ Hn); discriminate|].
  specialize (IH H). destruct d; auto. destruct (listed n ids0); auto; discriminate.
Qed.
Lemma fallback_more l1 l2 n c : fallback_of l1 n = Some c -> fallback_of (l1 ++ l2) n = Some c.
Proof.
  unfold fallback_of. induction l1 as [|d l1 IH]; intros H; [discriminate|]. cbn [app DeclSpec.first_of] in *. destruct (match d with DFallback fb ids => if listed n ids then Some fb else None | _ => None end); auto.
Qed.
Lemma falls_more l1 l2 a c : falls l1 a c -> falls (l1 ++ l2) a c.
Proof. induction 1; [constructor|]. eapply fl_step; eauto. now apply fallback_more. Qed.
Lemma type_lists ds n : type_of ds n <> None -> exists k t, In (DType k n t) ds.
Proof.
  unfold type_of. induction ds as [|d ds IH]; cbn [DeclSpec.first_of]; intros H; [contradiction|].
  assert (HR : DeclSpec.first_of (fun d => match d with DType _ id (Some t) => if String.eqb n id then Some t else None | _ => None end) ds <> None -> exists k t, In (DType k n t) (d :: ds)) by (intros H'; destruct (IH H') as (k & t & Ht); exists k, t; now right).
  destruct d as [| | | | |k id t| | | | | | | | | | | | | | ]; auto. destruct t as [t|]; auto. destruct (String.eqb_spec n id) as [->|]; auto. exists k, (Some t). now left.
Qed.

Section Accept.
Context (ds1 ds2 : list decl) (b1 : built) (EX : expands ds1 b1) (RA : rearranged ds1 ds2) (NR : no_rivals ds1).
Context (KO : filter (weighed ds1) (rules_in ds1) = filter (weighed ds1) (rules_in ds2)) (NS : no_self_fallback ds1) (FD : flat_decls ds1).
Let HP := ra_perm _ _ RA.
Let SW := rearranged_same ds1 ds2 b1 EX RA NR.
Let SW' := sw_sym _ _ SW.
Let HI : forall d, In d ds2 -> In d ds1 := fun d => Permutation_in d (Permutation_sym HP).
Let HR : forall r, In r (rules_in ds2) -> In r (rules_in ds1) := sw_rule ds2 ds1 SW'.

Lemma elem_back e : has_elem ds2 e -> has_elem ds1 e.
Proof. intros (r & H1 & H2). exists r. auto. Qed.
Lemma kept_back : filter (weighed ds2) (rules_in ds2) = filter (weighed ds2) (rules_in ds1).
Proof. rewrite !(filter_ext (weighed ds2) (weighed ds1)); auto; intros d; unfold weighed; now rewrite (prec_same ds1 ds2 SW). Qed.
Lemma two_lists n fb ids fb' ids' : In (DFallback fb ids) ds1 -> In (DFallback fb' ids') ds1 -> In n ids -> In n ids' -> fb = fb'.
Proof.
  intros H1 H2 N1 N2. destruct (ForallOrdPairs_In (fallback_lines ds1 b1 EX) _ _ H1 H2) as [E|[H|H]].
  - now injection E.
  - exfalso. exact (H _ _ _ _ eq_refl eq_refl n N1 N2).
  - exfalso. exact (H _ _ _ _ eq_refl eq_refl n N2 N1).
Qed.
Lemma typed_back e : elem_typed ds2 e = elem_typed ds1 e.
Proof. destruct e as [[[|n [|m ns]] [|]] al]; cbn; auto. now rewrite (sw_raw ds2 ds1 SW'). Qed.
Lemma hands_back r : hands_on ds1 r -> hands_on ds2 r.
Proof. intros [H1 H2]. split; auto. rewrite (filter_ext (elem_typed ds2) (elem_typed ds1)); auto. apply typed_back. Qed.
Lemma reads_back r e : reads ds2 r e -> reads ds1 r e.
Proof. intros [H|[H|(H1 & H2 & H3)]]; [now left|right; now left|]. right. right. rewrite <- (sw_raw ds2 ds1 SW'), <- typed_back. auto. Qed.

Theorem no_fault e : ~ fault ds2 e.
Proof.
  intros HF. assert (NF : forall e, ~ fault ds1 e) by (intros e'; apply (expanded_faultless ds1 b1 EX); auto).
  assert (TW : forall k, twice k ds2 -> False).
  { intros k (i & j & d & e' & L & Hd & He & K1 & K2). assert (HO : ForallOrdPairs (fun d e => single_kind d <> Some k \/ single_kind e <> Some k) ds2) by (apply (fop_perm _) with (2 := HP); [tauto|apply (one_kind ds1 b1 EX)]).
    destruct (fop_at _ _ HO _ _ _ _ L Hd He); contradiction. }
  assert (NR' : no_rivals ds2) by (eapply no_rivals'; eauto).
  assert (MID : forall (l1 : list decl) d l2, ds2 = l1 ++ d :: l2 -> forall e, In e l1 -> ~ rivals e d).
  { intros l1 d l2 E e' He. apply in_split in He as (k1 & k2 & ->). apply (proj1 (fop_split _ _) NR' k1 e' (k2 ++ d :: l2)); [now rewrite E, <- app_assoc|]. apply in_app_iff. right. now left. }
  assert (OUT : forall l1 fb ids l2, ds2 = l1 ++ DFallback fb ids :: l2 -> In (DFallback fb ids) ds1) by (intros l1 fb ids l2 E; apply HI; rewrite E; apply in_app_iff; right; now left).
  assert (AU2' : forall n q, assoc_of ds2 n = Some q -> upper n) by (intros n q; rewrite <- (sw_assoc _ _ SW); apply (ex_assoc ds1 b1 EX)).
  destruct e; cbn in HF; try (eapply TW; eassumption).
  - destruct HF as (k & n & t & H & HF). apply (NF EAttrs). exists k, n, t. auto.
  - destruct HF as (n & H1 & H2 & HF). apply (NF EBadIdent). exists n. splits; auto. destruct HF as [(k & t & H)|(o & al & H)]; [left; exists k, t; auto|right; exists o, al; now apply elem_back].
  - destruct HF as (l1 & k & n & t & l2 & E & HF). apply type_lists in HF as (k' & t' & HF). exact (MID _ _ _ E _ HF eq_refl).
  - destruct HF as (a & ids & n & H & HF). apply (NF EPrecNonTerm). exists a, ids, n. auto.
  - destruct HF as (l1 & a & ids & l2 & E & HF). pose proof (ra_prec _ _ RA) as EP. rewrite E, filter_app in EP. cbn [filter is_prec_line] in EP. apply filter_mid in EP as (k1 & k2 & -> & EK).
    apply (NF EPrecDup). exists k1, a, ids, k2. split; auto. destruct HF as [HF|(n & Hn & HF)]; auto. right. exists n. split; auto. unfold assoc_of in *. now rewrite assoc_filter, EK, <- assoc_filter.
  - destruct HF as (n & H & HF). apply (NF EStartTerm). exists n. auto.
  - destruct HF as (fb & ids & n & H & HF). apply (NF EFallbackIds). exists fb, ids, n. auto.
  - destruct HF as (fb & ids & H & HF). apply (NF EFallbackTok). exists fb, ids. auto.
  - destruct HF as (l1 & fb & ids & l2 & c & n & E & H1 & H2 & Hn). pose proof (OUT _ _ _ _ E) as HD.
    assert (HF : falls ds1 fb n) by (apply (sw_falls ds2 ds1 SW'); rewrite E; eapply falls_then; [apply fallback_more; eauto|now apply falls_more]).
    destruct (fallback_of ds1 n) as [c'|] eqn:Ec; [|now apply (fallback_some _ _ _ _ HD Hn) in Ec]. destruct (fallback_lists _ _ _ Ec) as (ids' & HD' & Hn').
    rewrite <- (two_lists n _ _ _ _ HD HD' Hn Hn') in Ec. exact (fallback_acyclic ds1 b1 EX NS n fb Ec HF).
  - destruct HF as (l1 & fb & ids & l2 & E & HF). pose proof (OUT _ _ _ _ E) as HD. destruct HF as [HF|(n & Hn & HF)].
    + apply in_split in HD as (k1 & k2 & EK). apply (NF EFallbackDup). exists k1, fb, ids, k2. auto.
    + destruct (fallback_of l1 n) as [c|] eqn:Ec; [|contradiction]. destruct (fallback_lists _ _ _ Ec) as (ids' & HD' & Hn'). apply in_split in HD' as (k1 & k2 & ->).
      assert (HO : ForallOrdPairs (fun d e => forall fb ids fb' ids', d = DFallback fb ids -> e = DFallback fb' ids' -> forall n, In n ids -> ~ In n ids') ds2).
      { apply (fop_perm _) with (2 := HP); [|apply (fallback_lines ds1 b1 EX)]. intros d e' H f1 i1 f2 i2 E1 E2 m M1 M2. exact (H _ _ _ _ E2 E1 m M2 M1). }
      refine (proj1 (fop_split _ _) HO k1 _ (k2 ++ DFallback fb ids :: l2) _ _ _ _ _ _ _ eq_refl eq_refl n Hn' Hn); [now rewrite E, <- app_assoc|]. apply in_app_iff. right. now left.
  - destruct HF as (n & H & HF). apply (NF EWildTok). exists n. auto.
  - destruct HF as (n & ids & H & HF). apply (NF EClassTok). exists n, ids. auto.
  - destruct HF as (c & ids & n & H & HF). apply (NF EClassIds). exists c, ids, n. auto.
  - destruct HF as (l1 & n & t & l2 & m & u & E & HF). exact (MID _ _ _ E _ HF Logic.I).
  - destruct HF as (r & H & HF). apply (NF ELhs). exists r. auto.
  - destruct HF as (ns & o & al & n & H & HF). apply (NF ECompound). exists ns, o, al, n. split; auto. now apply elem_back.
  - destruct HF as (r & n & H & HF). apply (NF EPrecSym). exists r, n. auto.
  - apply (NF ENoRules). cbn. pose proof (sw_rules _ _ SW) as PR. rewrite HF in PR. apply Permutation_sym, Permutation_nil in PR. exact PR.
  - destruct HF as (r & H1 & H2 & H3 & H4). apply (NF ETypedNoCode). exists r. rewrite (sw_raw ds1 ds2 SW). splits; auto. intros H. apply H4. now apply hands_back.
  - destruct HF as (n & o & al & H & HF). apply (NF EStartRhs). exists n, o, al. rewrite (sw_start _ _ SW). split; auto. now apply elem_back.
  - destruct HF as (n & o & al & H1 & H2 & H3 & H4). apply (NF ENtNoRules). exists n, o, al. splits; auto; [now apply elem_back|]. intros r Hr. apply H4. apply (sw_rule ds1 ds2 SW). exact Hr.
  - destruct HF as (g & r & HG & HL). apply (NF ENotReduced). destruct (same_lost ds2 ds1 g (bt_grammar b1) HG (expands_written _ _ EX) SW' AU2' kept_back) as [q Hq]; [eauto|]. exists (bt_grammar b1), q. split; auto. now apply expands_written.
  - destruct HF as (g & HG & HL). apply (NF EConflicts). exists (bt_grammar b1). split; [now apply expands_written|]. exact (same_conflicts ds2 ds1 g (bt_grammar b1) HG (expands_written _ _ EX) SW' AU2' kept_back HL).
  - destruct HF as (w & H1 & H2). apply (NF EWildType). exists w. now rewrite (sw_wild _ _ SW), (sw_raw ds1 ds2 SW).
  - destruct HF as (n & gs & H & HF). apply (NF ETokenNotEmpty). exists n, gs. auto.
  - destruct HF as (n & gs & H & HF). apply (NF EParserNotEmpty). exists n, gs. auto.
  - destruct HF as (n & gs & m & hs & x & H1 & H2 & H3 & H4). apply (NF EGenerics). exists n, gs, m, hs, x. auto.
  - destruct HF as (a & c & H1 & H2). apply (NF EFallbackType). exists a, c. now rewrite (sw_fb _ _ SW), !(sw_name ds1 ds2 SW).
  - destruct HF as (r & e & m & ms & n & H1 & H2 & H3 & H4 & H5 & H6). apply (NF ECompoundAlias). exists r, e, m, ms, n. rewrite (sw_name ds1 ds2 SW). splits; auto; [now apply reads_back| |].
    + rewrite <- H4. destruct e as [[[|x [|y l]] o] al]; cbn; auto. apply (sw_class _ _ SW).
    + replace (choice_type ds1 e) with (choice_type ds2 e); auto. destruct e as [[[|x [|y l]] o] al]; cbn; auto; [apply (sw_name ds2 ds1 SW')|]. now rewrite (sw_name ds2 ds1 SW'), (sw_dflt _ _ SW).
  - destruct HF as (w & o & al & H1 & H2 & H3). apply (NF EWildAlias). exists w, o, al. rewrite (sw_wild _ _ SW). splits; auto. now apply elem_back.
Qed.
Context (EN : elems_named ds1) (CB : classes_begin ds1).
Lemma flat_forth : flat_decls ds2.
Proof.
  destruct FD as [F1 F2]. split.
  - intros n ms m. rewrite <- !(sw_class _ _ SW). apply F1.
  - intros d ns o al Hd He L m Hm. rewrite <- (sw_class _ _ SW). eapply F2; eauto.
Qed.
Lemma self_forth : no_self_fallback ds2.
Proof. intros fb ids H. apply NS. auto. Qed.
Theorem rearranged_accepted : exists b2, expands ds2 b2.
Proof.
  apply accepted_exactly; [apply self_forth| | |apply flat_forth|apply no_fault].
  - intros lhs rhs c p toks o al H. apply (EN lhs rhs c p toks o al). auto.
  - intros n ms. rewrite <- (sw_class _ _ SW). apply CB.
Qed.
End Accept.

(** The two parsers return the same for every input that one of them accepts without dropping a
    token, unless the other runs into the stack limit. *)
Theorem rearranged_answers ds1 ds2 b1 b2 : expands ds1 b1 -> usable ds1 b1 -> expands ds2 b2 -> usable ds2 b2 -> rearranged ds1 ds2 -> no_rivals ds1 ->
  filter (weighed ds1) (rules_in ds1) = filter (weighed ds1) (rules_in ds2) -> types_ok ds1 -> wildcard_of ds1 = None -> (forall a l, assoc_of ds1 a = Some (l, ANone) -> fallback_of ds1 a = None) ->
  forall {V X E} (sm : sem V X E) ks1 ks2, tokens_wf b1 ks1 -> tokens_wf b2 ks2 -> reading b1 sm ks1 = reading b2 sm ks2 -> forall x r x',
  (answers b1 sm x ks1 r x' -> answers_or_overflows b2 sm x ks2 r x') /\ (answers b2 sm x ks2 r x' -> answers_or_overflows b1 sm x ks1 r x').
Proof.
  intros EX1 US1 EX2 US2 RA NR KO TO HW HT V X E sm ks1 ks2 K1 K2 EQ x r x'. pose proof (rearranged_same ds1 ds2 b1 EX1 RA NR) as SW. split.
  - eapply same_answers; eauto.
  - apply (same_answers ds2 ds1 b2 b1 sm); auto; [now apply sw_sym| | | |].
    + eapply kept_back; eauto.
    + now rewrite <- (sw_wild _ _ SW).
    + intros a l. rewrite <- (sw_assoc _ _ SW), <- (sw_fb _ _ SW). apply HT.
    + eapply sw_types; eauto.
Qed.
