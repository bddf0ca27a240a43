(** The symbols of the grammar are exactly the ones the declarations mention. *)
From Coq Require Import Permutation.
From Verif Require Import Base Syntax BaseFacts FrontEnd First States Actions Tables Runtime User Spec WfGrammar FirstFacts PipeFacts FrontFacts
  BuildFacts DeclSpec DeclFacts GramFacts LangFacts DeclMore.
Open Scope string_scope. Open Scope nat_scope. Open Scope list_scope.

(** Names the generator makes up: those of compounds and of optional symbols *)
Definition made_up (n : ident) : Prop := n = "" \/ exists k, n = optional_name k.
Definition brings (ns : list ident) (f f' : fe) : Prop :=
  incl (names f) (names f') /\ incl ns (names f') /\ forall n, In n (names f') -> In n (names f) \/ In n ns \/ made_up n.

Lemma brings_refl f : brings [] f f.
Proof. split; [apply incl_refl|]. split; [intros ? []|auto]. Qed.
Lemma brings_trans l m f1 f2 f3 : brings l f1 f2 -> brings m f2 f3 -> brings (l ++ m) f1 f3.
Proof.
  intros (A1 & A2 & A3) (B1 & B2 & B3). split; [eapply incl_tran; eauto|]. split.
  - apply incl_app; auto. eapply incl_tran; eauto.
  - intros n Hn. destruct (B3 n Hn) as [H|[H|H]]; auto.
    + destruct (A3 n H) as [H'|[H'|H']]; auto. right. left. apply in_or_app. auto.
    + right. left. apply in_or_app. auto.
Qed.
Lemma brings_same ns f f' : names f' = names f -> brings ns f f -> brings ns f f'.
Proof. unfold brings. now intros ->. Qed.
Lemma upd_names f i F : (forall s, sy_name (F s) = sy_name s) -> names (set_syms f (upd (f_syms f) i F)) = names f.
Proof. intros HN. unfold names. cbn. revert i. induction (f_syms f) as [|s r IH]; intros [|i]; cbn; rewrite ?HN, ?IH; auto. Qed.
Lemma brings_upd f i F : (forall s, sy_name (F s) = sy_name s) -> brings [] f (set_syms f (upd (f_syms f) i F)).
Proof. intros HN. apply brings_same; [now apply upd_names|apply brings_refl]. Qed.
Lemma brings_drop n l f f' : made_up n -> brings (n :: l) f f' -> brings l f f'.
Proof.
  intros M (A & B & C). split; auto. split; [intros x Hx; apply B; now right|]. intros x Hx. destruct (C x Hx) as [H|[[<-|H]|H]]; auto.
Qed.
Lemma brings_perm l m f f' : (forall n, In n l <-> In n m) -> brings l f f' -> brings m f f'.
Proof. intros H (A & B & C). split; auto. split; [intros x Hx; now apply B, H|]. intros x Hx. destruct (C x Hx) as [?|[?|?]]; auto. right. left. now apply H. Qed.

Lemma brings_new f n t i f' : symbol_new f n t = GOk (i, f') -> brings [n] f f'.
Proof.
  intros H. unfold symbol_new in H. destruct (if String.eqb n "" then None else _) as [j|] eqn:Ep.
  - destruct (String.eqb_spec n "") as [|Hne]; [discriminate|]. apply position_some in Ep as (s & Hs & Es & _). apply String.eqb_eq in Es.
    assert (Hin : In n (names f)) by (unfold names; apply in_map_iff; exists s; split; auto; eapply nth_error_In; eauto).
    assert (HB : forall F, (forall s, sy_name (F s) = sy_name s) -> forall f1, f_syms f1 = upd (f_syms f) j F -> brings [n] f f1).
    { intros F HF f1 E1. assert (EN : names f1 = names f) by (unfold names; rewrite E1; apply (upd_names f j F HF)). apply brings_same; auto.
      split; [apply incl_refl|]. split; [intros ? [<-|[]]; auto|auto]. }
    destruct t; try (injection H as <- <-; now apply (HB sym_incr_use)). destruct (sy_kind (get_sym f j)); try discriminate; injection H as <- <-; [|now apply (HB sym_incr_use)].
    rewrite <- (app_nil_r [n]). apply (brings_trans [n] [] f (set_syms f (upd (f_syms f) j sym_incr_use))); [now apply (HB sym_incr_use)|]. apply (brings_upd (set_syms f (upd (f_syms f) j sym_incr_use)) j). reflexivity.
  - injection H as <- <-. unfold brings, names. cbn. rewrite map_app. cbn. split; [apply incl_appl, incl_refl|]. split; [apply incl_appr, incl_refl|].
    intros x Hx. apply in_app_or in Hx as [Hx|Hx]; auto.
Qed.
Lemma brings_terms e ids : forall ss f ss' f',
  gfold (fun '(ss, f) tok => if is_terminal_ident tok then '(s, f') <-! symbol_new f tok NTerm ; GOk (ss ++ [s], f') else GErr e) ids (ss, f) = GOk (ss', f') -> brings ids f f'.
Proof.
  induction ids as [|n ids IH]; intros ss f ss' f' H; cbn [gfold] in H; [injection H as <- <-; apply brings_refl|].
  destruct (is_terminal_ident n); [|discriminate]. apply gbind_ok in H as ([ss1 f1] & H1 & H). apply gbind_ok in H1 as ([s f2] & H2 & H1).
  injection H1 as <- <-. apply brings_new in H2. apply (brings_trans [n] ids f f2); eauto.
Qed.
Lemma brings_elem f e x f' : rhs_elem_sym f e = GOk (x, f') -> brings (let '(toks, _, _) := e in toks) f f'.
Proof.
  destruct e as [[toks o] alias]. unfold rhs_elem_sym. destruct toks as [|tok [|tok2 toks]]; [discriminate| |]; intros H.
  - apply gbind_ok in H as (t & _ & H). destruct o; apply gbind_ok in H as ([s f1] & H1 & H); apply brings_new in H1.
    + destruct (find _ _) as [[y sl]|]; [injection H as <- <-; auto|]. apply gbind_ok in H as ([sl f2] & H2 & H). injection H as <- <-.
      apply brings_new in H2. assert (HB : brings ([tok] ++ [optional_name (List.length (f_opt f1))]) f f2) by (eapply brings_trans; eauto).
      apply (brings_drop (optional_name (List.length (f_opt f1)))); [right; eauto|]. apply (brings_perm ([tok] ++ [optional_name (List.length (f_opt f1))])); [cbn; tauto|]. exact HB.
    + now injection H as <- <-.
  - apply gbind_ok in H as ([mt f1] & H1 & H). apply brings_new in H1. apply gbind_ok in H as ([ss f2] & H2 & H). apply brings_terms in H2.
    destruct (sy_kind (get_sym f2 mt)); try discriminate. injection H as <- <-. apply (brings_drop ""); [now left|].
    apply (brings_perm ([""] ++ (tok :: tok2 :: toks) ++ [])); [now rewrite app_nil_r|].
    eapply brings_trans; [exact H1|]. eapply brings_trans; [exact H2|]. now apply (brings_upd f2).
Qed.
Lemma brings_rhs es : forall r f r' f', gfold (fun '(r, f) e => '(x, f') <-! rhs_elem_sym f e ; GOk (r ++ [x], f')) es (r, f) = GOk (r', f') ->
  brings (flat_map (fun '(toks, _, _) => toks) es) f f'.
Proof.
  induction es as [|e es IH]; intros r f r' f' H; cbn [gfold] in H; [injection H as <- <-; apply brings_refl|].
  apply gbind_ok in H as ([r1 f1] & H1 & H). apply gbind_ok in H1 as ([x f2] & H2 & H1). injection H1 as <- <-. apply brings_elem in H2.
  cbn [flat_map]. destruct e as [[toks o] al]. eapply brings_trans; eauto.
Qed.

Lemma brings_one fuel f d f' : parse_one_decl fuel f d = GOk f' -> brings (mention d) f f'.
Proof.
  intros H. destruct d; cbn [parse_one_decl] in H;
    try (destruct (opt_is_some _) eqn:Eo in H; [discriminate|]; injection H as <-; apply brings_same; [reflexivity|apply brings_refl]);
    try (injection H as <-; apply brings_same; [reflexivity|apply brings_refl]).
  - (* DType *) apply gbind_ok in H as (k & _ & H). apply gbind_ok in H as ([s f1] & H1 & H). destruct (opt_is_some _); [discriminate|].
    injection H as <-. apply brings_new in H1. apply (brings_trans [id] [] f f1); [exact H1|]. now apply brings_upd.
  - (* DAssoc *) cbn [mention]. assert (K : brings ids (set_precno f (S (f_prec f))) f'); [|exact K].
    revert H. generalize (set_precno f (S (f_prec f))). clear. induction ids as [|n ids IH]; intros f H; cbn [gfold] in H; [injection H as <-; apply brings_refl|].
    destruct (is_terminal_ident n); [|discriminate]. apply gbind_ok in H as (f1 & H1 & H). apply gbind_ok in H1 as ([s f2] & H2 & H1).
    destruct (opt_is_some _); [discriminate|]. injection H1 as <-. apply brings_new in H2. apply IH in H.
    apply (brings_trans [n] ids f f2); [exact H2|]. apply (brings_trans [] ids f2 _ _ (brings_upd f2 s (sym_set_prec (Some (f_prec f2, a))) (fun _ => eq_refl)) H).
  - (* DStartSymbol *) destruct (opt_is_some (f_start f)) eqn:Eo; [discriminate|]. destruct (is_nonterminal_ident id); [|discriminate].
    apply gbind_ok in H as ([s f1] & H1 & H). injection H as <-. now apply brings_new in H1.
  - (* DFallback *) apply gbind_ok in H as ([syms f1] & H1 & H). apply brings_terms in H1. destruct (is_terminal_ident fb); [|discriminate].
    apply gbind_ok in H as ([fbs f2] & H2 & H). apply brings_new in H2. apply gbind_ok in H as (u & _ & H).
    assert (K : brings [] f2 f').
    { revert H. clear. revert f2. induction syms as [|s syms IH]; intros f H; cbn [gfold] in H; [injection H as <-; apply brings_refl|].
      apply gbind_ok in H as (f1 & H1 & H). destruct (opt_is_some _); [discriminate|]. injection H1 as <-. apply IH in H.
      apply (brings_trans [] [] f _ _ (brings_upd f s (sym_set_fb (Some fbs)) (fun _ => eq_refl))). exact H. }
    cbn [mention]. apply (brings_perm (ids ++ [fb] ++ [])); [intros n; rewrite in_app_iff; cbn; tauto|]. eapply brings_trans; [eassumption|]; eapply brings_trans; eassumption.
  - (* DWildcard *) destruct (opt_is_some (f_wild f)) eqn:Eo; [discriminate|]. destruct (is_terminal_ident id); [|discriminate].
    apply gbind_ok in H as ([s f1] & H1 & H). injection H as <-. now apply brings_new in H1.
  - (* DTokenClass *) destruct (is_terminal_ident tk); [|discriminate]. apply gbind_ok in H as ([c f1] & H1 & H). apply brings_new in H1.
    assert (K : brings ids f1 f').
    { revert H. clear. revert f1. induction ids as [|n ids IH]; intros f H; cbn [gfold] in H; [injection H as <-; apply brings_refl|].
      destruct (is_terminal_ident n); [|discriminate]. apply gbind_ok in H as (f1 & H1 & H). apply gbind_ok in H1 as ([s f2] & H2 & H1).
      destruct (sy_kind (get_sym f2 c)) as [| |m]; try discriminate. injection H1 as <-. apply brings_new in H2. apply IH in H.
      apply (brings_trans [n] ids f f2); [exact H2|]. apply (brings_trans [] ids f2 _ _ (brings_upd f2 c (sym_set_kind (KMulti (m ++ [s]))) (fun _ => eq_refl)) H). }
    cbn [mention]. apply (brings_trans [tk] ids f f1); assumption.
  - (* DRule *) destruct (is_nonterminal_ident lhs); [|discriminate]. apply gbind_ok in H as ([l f1] & H1 & H). apply brings_new in H1.
    apply gbind_ok in H as ([r f2] & H2 & H). apply brings_rhs in H2. apply gbind_ok in H as ([ps f3] & H3 & H).
    assert (K3 : brings (match prec with Some n => [n] | None => [] end) f2 f3).
    { destruct prec as [n|]; [|injection H3 as <- <-; apply brings_refl]. destruct (is_terminal_ident n); [|discriminate].
      apply gbind_ok in H3 as ([s f4] & H4 & H3). injection H3 as <- <-. now apply brings_new in H4. }
    unfold create_rule in H. destruct (sy_kind _); try discriminate. injection H as <-. cbn [mention].
    change (brings (lhs :: flat_map (fun '(toks, _, _) => toks) rhs ++ match prec with Some n => [n] | None => [] end) f f3).
    apply (brings_trans [lhs] _ f f1); [exact H1|]. eapply brings_trans; eassumption.
Qed.
Lemma brings_all fuel ds : forall f f', gfold (parse_one_decl fuel) ds f = GOk f' -> brings (flat_map mention ds) f f'.
Proof.
  induction ds as [|d ds IH]; intros f f' H; cbn [gfold] in H; [injection H as <-; apply brings_refl|].
  apply gbind_ok in H as (f1 & H1 & H). cbn [flat_map]. eapply brings_trans; [eapply brings_one; eauto|eauto].
Qed.

(** ** The whole grammar *)
Lemma shape_names f f' : same_shape f f' -> names f' = names f.
Proof. intros [H _]. unfold names. induction H as [|a b l m Hab H IH]; cbn; auto. rewrite IH. f_equal. apply Hab. Qed.
Lemma prep_names fuel ord f b n : build_fe fuel ord f = GOk b -> (exists i, at_name (bt_grammar b) i n) <-> In n (names f).
Proof.
  intros H.
  apply build_fe_inv in H as [(g0 & Hp & Hno) _ _ _ _ _].
  apply normalize_rules_spec in Hno as (ES & _). unfold at_name. rewrite ES. cbn [g_syms find_rule_precedences]. apply prepare_spec in Hp as [(f2 & Hs & _ & _ & -> & _) _ _ _ _ _].
  assert (HN : names f2 = names f) by (now apply shape_names).
  split.
  - intros (i & s & Hi & <-). rewrite nth_error_map in Hi. destruct (nth_error (order f) i) as [j|] eqn:Ej; [|discriminate]. injection Hi as <-. cbn.
    apply nth_error_In in Ej. apply (Permutation_in _ (order_perm f)), in_seq in Ej. rewrite <- HN. unfold names, get_sym. apply in_map, nth_In. rewrite <- (map_length sy_name). fold (names f2). rewrite HN. unfold names. rewrite map_length. lia.
  - intros Hin. rewrite <- HN in Hin. unfold names in Hin. apply in_map_iff in Hin as (s & En & Hin). apply In_nth_error in Hin as (j & Hj).
    assert (Lj : j < List.length (f_syms f)).
    { assert (j < List.length (f_syms f2)) by (apply nth_error_Some; congruence). rewrite <- (map_length sy_name (f_syms f)). fold (names f). rewrite <- HN. unfold names. now rewrite map_length. }
    exists (index_of (order f) j). pose proof (index_of_nth f j Lj) as Hi. eexists. split; [rewrite nth_error_map, Hi; reflexivity|]. cbn. unfold get_sym. now rewrite (nth_error_nth _ _ _ Hj).
Qed.

Lemma build_names fuel ord ds b n : build fuel ord ds = GOk b -> upper n \/ lower n ->
  ((exists i, at_name (bt_grammar b) i n) <-> n = "error" \/ mentions ds n).
Proof.
  intros H Hn. unfold build in H. apply gbind_ok in H as (f & Hf & H). unfold new_from_decls in Hf. apply gbind_ok in Hf as (f0 & H0 & Hf).
  pose proof (brings_all _ _ _ _ H0) as (B1 & B2 & B3). cbn in B1, B3. assert (HM : In n (flat_map mention ds) <-> mentions ds n) by apply in_flat_map.
  assert (Hf' : brings ["{default}"] f0 f).
  { apply gbind_ok in Hf as ([x f1] & H1 & Hf). apply brings_new in H1. destruct (f_rules f1); [discriminate|]. now injection Hf as <-. }
  destruct Hf' as (C1 & C2 & C3).
  assert (HF : In n (names f) <-> n = "error" \/ mentions ds n).
  { rewrite <- HM. split.
    - intros Hin. apply C3 in Hin as [Hin|[[<-|[]]|Hin]].
      + apply B3 in Hin as [[<-|[<-|[]]]|[Hin|Hin]]; auto; [destruct Hn; discriminate|].
        destruct Hin as [->|(k & ->)]; [destruct Hn; discriminate|]. now destruct (opt_not_id k _ Hn).
      + destruct Hn; discriminate.
      + destruct Hin as [->|(k & ->)]; [destruct Hn; discriminate|]. now destruct (opt_not_id k _ Hn).
    - intros [->|Hin]; apply C1; [apply B1; right; now left|now apply B2]. }
  rewrite <- HF. eapply prep_names; eauto.
Qed.
Lemma build_default fuel ord ds b : build fuel ord ds = GOk b -> exists i, at_name (bt_grammar b) i "{default}".
Proof.
  intros H. unfold build in H. apply gbind_ok in H as (f & Hf & H). unfold new_from_decls in Hf. apply gbind_ok in Hf as (f0 & H0 & Hf).
  apply (prep_names _ _ _ _ _ H). apply gbind_ok in Hf as ([x f1] & H1 & Hf). apply brings_new in H1 as (_ & HB & _). destruct (f_rules f1); [discriminate|]. injection Hf as <-. apply HB. now left.
Qed.
