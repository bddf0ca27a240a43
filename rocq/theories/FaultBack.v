(** The faults behind the errors after the declarations have been read: rules without code
    (mod.rs 731-756), the start symbol in a right-hand side (858-876), a non-terminal without
    rules (1600), conflicts and lost rules, and the checks of generate_source. *)
From Verif Require Import Base Syntax BaseFacts FrontEnd First States Actions Tables Runtime User Spec WfGrammar FirstFacts ClosureFacts AutoFacts LalrFacts ActFacts GroupFacts CompFacts TabFacts PackFacts LookFacts PipeFacts RunFacts FrontFacts
  BuildFacts DeclSpec DeclFacts GramFacts LangFacts MeanSpec TypeFacts TypeDecl Main Claims Claims2 DeclMore FaultSpec FaultFacts FaultAct.
Open Scope string_scope. Open Scope nat_scope. Open Scope list_scope.

(** ** What is known of the declarations read *)
Record read_as (ds : list decl) (f : fe) (f0 : fe) : Prop := {
  ra_di : DI ds f0;
  ra_eq : f = set_syms f0 (f_syms f0 ++ [mkSym "{default}" KNonTerm None None 1 None 0]);
  ra_dec : Decls f;
  ra_anon : anon_used f0;
  ra_opt : DeclFacts.opt_used f0;
  ra_dollar : type_of ds "$" = None;
  ra_start : forall x, start_line ds = Some x -> lower x }.
Lemma read_decls fuel ds f : new_from_decls fuel ds = GOk f -> exists f0, gfold (parse_one_decl fuel) ds fe_init = GOk f0 /\ read_as ds f f0.
Proof.
  intros Hf. pose proof (new_from_decls_spec _ _ _ Hf) as D.
  unfold new_from_decls in Hf. apply gbind_ok in Hf as (f0 & Hd & Hf). pose proof (decls_DI _ _ _ Hd) as DD. exists f0. split; auto.
  assert (Ef : f = set_syms f0 (f_syms f0 ++ [mkSym "{default}" KNonTerm None None 1 None 0])).
  { unfold symbol_new in Hf. cbn [String.eqb] in Hf. destruct (position _ _) as [j|] eqn:Ep.
    - exfalso. change (if ("{default}" =? "")%string then None else position (fun s : symbol => (sy_name s =? "{default}")%string) (f_syms f0)) with
        (position (fun s : symbol => (sy_name s =? "{default}")%string) (f_syms f0)) in Ep.
      apply position_some in Ep as (s & Hs & Es & _). apply String.eqb_eq in Es. apply nth_error_In in Hs.
      apply (fi_tail f0 (ai_fi _ _ _ _ _ (di_ai _ _ DD)) (sy_name s)); auto. unfold FrontFacts.names. now apply in_map.
    - cbn [gbind] in Hf. destruct (f_rules _); [discriminate|]. now injection Hf as <-. }
  constructor; auto; [eapply decls_anon; eauto|eapply decls_opt; eauto| |].
  - destruct (type_of ds "$") as [ty|] eqn:Et; auto. exfalso. apply GramFacts.first_of_in in Et as (d & Hin & E). destruct d as [| | | | |nat0 id [ty'|]| | | | | | | | | | | | | |]; try discriminate.
    destruct (String.eqb_spec "$" id) as [<-|]; [|discriminate]. destruct (GramFacts.gfold_each _ _ _ _ Hd _ Hin) as (s1 & s2 & HX). discriminate.
  - intros x Hx. eapply start_lower; eauto.
Qed.

Lemma prepare_no_err ord f e : prepare ord f <> GErr e.
Proof.
  unfold prepare. intros H. apply gbind_err in H as [H|(f2 & _ & H)]; [|discriminate]. unfold optional_rules in H.
  revert H. generalize (ord (f_opt (extra_token_type f (ssort (symbol_less f) (seq 0 (List.length (f_syms f))))
    (S match rposition is_kterm (map (fun id => sy_kind (get_sym f id)) (ssort (symbol_less f) (seq 0 (List.length (f_syms f))))) with Some i => i | None => 0 end)))).
  generalize (extra_token_type f (ssort (symbol_less f) (seq 0 (List.length (f_syms f))))
    (S match rposition is_kterm (map (fun id => sy_kind (get_sym f id)) (ssort (symbol_less f) (seq 0 (List.length (f_syms f))))) with Some i => i | None => 0 end)).
  intros f1 l. revert f1. induction l as [|[r x] l IH]; intros f1 H; cbn [gfold] in H; [discriminate|].
  apply gbind_err in H as [H|(f3 & _ & H)]; [|eapply IH; eauto]. unfold create_rule in H. apply gbind_err in H as [H|(f4 & _ & H)]; destruct (sy_kind _); discriminate.
Qed.

(** ** A rule with a typed left-hand side and no code *)
Section Typed.
Context (ord : list (nat * nat) -> list (nat * nat)) (ds : list decl) (f0 f : fe) (g0 : grammar).
Hypothesis RA : read_as ds f f0.
Hypothesis Ho : hash_order ord.
Hypothesis Pe : prepare ord f = GOk g0.
Notation ix := (index_of (order f)).
Notation go := (gopts ord f).
Let DD := ra_di _ _ _ RA.
Let Ef := ra_eq _ _ _ RA.
Let D := ra_dec _ _ _ RA.
Let Pr := prepare_spec _ _ _ Pe.
Let W0 : wf_grammar g0 := front_wf ord f g0 D Pr Ho.
Let K0 : kept (find_rule_precedences g0) g0.
Proof. repeat split. Qed.

Lemma typed_elem e X : elem_sym g0 go e X -> has_type g0 X = elem_typed ds e.
Proof.
  destruct e as [[toks o] al]. unfold elem_sym, elem_typed, has_type. destruct toks as [|tok [|tok2 toks]]; [intros []| |].
  - intros [Hid H]. destruct o.
    + destruct H as (Y & Hin & _). now rewrite (lf_type_opt ord ds f0 f g0 g0 DD Ef Pr Ho K0 Pe W0 _ _ Hin).
    + now rewrite (lf_type ord ds f0 f g0 g0 DD Ef D Pr Ho K0 Pe W0 _ _ H Hid).
  - intros (_ & H & _). now rewrite (lf_type_anon ord ds f0 f g0 g0 DD Ef D Pr Ho K0 Pe W0 _ H).
Qed.

Lemma typed_fault e : normalize_rules (find_rule_precedences g0) = GErr e -> fault ds e.
Proof.
  intros H. unfold normalize_rules in H. apply gbind_err in H as [H|(rs & _ & H)]; [|discriminate]. apply gfold_err in H as (l1 & ru & l2 & s & El & _ & H).
  apply gbind_err in H as [H|(r' & _ & H)]; [|discriminate].
  assert (Hin : In ru (g_rules (find_rule_precedences g0))) by (rewrite El; apply in_app_iff; right; now left). clear El l1 l2 s.
  cbn in Hin. apply in_map_iff in Hin as (r1 & E1 & Hin). destruct (pr_f2 _ _ _ Pr) as (f2 & _ & HR & _ & _ & HG). rewrite HG, HR in Hin.
  apply in_map_iff in Hin as (r0 & E0 & Hin). subst r1 ru. unfold normalize_rule in H. cbn [ren_rule r_code r_lhs r_rhs r_precsym] in H.
  apply in_app_iff in Hin as [Hin|Hin].
  2:{ exfalso. unfold opt_rules_of in Hin. apply in_flat_map in Hin as ([a b] & _ & Hin). destruct Hin as [<-|[<-|[]]]; cbn in H; discriminate. }
  replace (f_rules f) with (f_rules f0) in Hin by (now rewrite Ef).
  destruct (forall2_in_r _ _ _ (di_rules _ _ DD) _ Hin) as (d & Hd & (H1 & H2 & H3 & _)). rewrite H3 in H. destruct (d_code d) as [c|] eqn:Ec; [discriminate|].
  pose proof (lf_at0 ord f0 f g0 g0 Ef Pr K0 _ _ H1) as HL.
  assert (Hlow : lower (d_lhs d)).
  { destruct (Forall_forall (rule_ok (FrontFacts.names f0)) (f_rules f0)) as [HO _]. specialize (HO (fi_rules f0 (ai_fi _ _ _ _ _ (di_ai _ _ DD))) _ Hin) as ((x & Hx & Lx) & _).
    unfold name_at in H1. rewrite H1 in Hx. now injection Hx as <-. }
  change (has_type (find_rule_precedences g0) (ix (r_lhs r0))) with (has_type g0 (ix (r_lhs r0))) in H.
  destruct (has_type g0 (ix (r_lhs r0))) eqn:ET; [|discriminate].
  assert (HE : map snd (r_rhs r0) = map alias_of (d_rhs d) /\ map (fun p => has_type g0 (ix (fst p))) (r_rhs r0) = map (elem_typed ds) (d_rhs d)).
  { clear -H2 DD Ef Pr K0 Ho W0 D Pe. induction H2 as [|e p es ps He H2 IH]; cbn; [split; auto|]. apply (lf_elem ord f0 f g0 g0 Ef Pr Ho K0) in He as [A1 A2]. destruct IH as [B1 B2].
    split; f_equal; auto. now apply typed_elem. }
  destruct HE as [HA HT].
  destruct (forallb _ _ && _) eqn:Eb; [discriminate|]. injection H as <-. exists d. splits; auto.
  - unfold has_type in ET. rewrite (lf_type ord ds f0 f g0 g0 DD Ef D Pr Ho K0 Pe W0 _ _ HL (or_intror Hlow)) in ET. destruct (raw_type ds (d_lhs d)); discriminate.
  - intros [Q1 Q2]. apply andb_false_iff in Eb as [Eb|Eb].
    + apply not_true_iff_false in Eb. apply Eb. apply forallb_forall. intros p Hp. apply in_map_iff in Hp as (q & <- & Hq). cbn.
      assert (Hs : In (snd q) (map alias_of (d_rhs d))) by (rewrite <- HA; now apply in_map). apply in_map_iff in Hs as (e & Ee & He). now rewrite <- Ee, Q1.
    + apply Nat.eqb_neq in Eb. apply Eb. rewrite <- Q2. clear -HT. revert HT. generalize (d_rhs d) as es. induction (r_rhs r0) as [|p l IH]; intros [|e es] HT; try discriminate; auto.
      cbn in HT. injection HT as E HT. cbn. change (has_type (find_rule_precedences g0) (ix (fst p))) with (has_type g0 (ix (fst p))). rewrite E. destruct (elem_typed ds e); cbn; auto.
Qed.
End Typed.

(** ** The states *)
Definition no_rule (g : grammar) (X : nat) : Prop := kind_at g X = Some KNonTerm /\ X <> g_error g /\ forall ru, In ru (g_rules g) -> r_lhs ru <> X.
Lemma rhs_in g r d p : nth_error (r_rhs (grule g r)) d = Some p -> In (grule g r) (g_rules g) /\ In p (r_rhs (grule g r)).
Proof.
  intros H. split; [|eapply nth_error_In; eauto]. unfold grule in *. destruct (Nat.lt_ge_cases r (List.length (g_rules g))) as [L|L]; [now apply nth_In|].
  rewrite nth_overflow in H by auto. cbn in H. destruct d; discriminate.
Qed.
Section States.
Context (g : grammar) (fi : firsts) (W : wf_grammar g).
Definition missing (e : gerr) : Prop := e = ENtNoRules /\ exists ru X al, In ru (g_rules g) /\ In (X, al) (r_rhs ru) /\ no_rule g X.
Lemma closure_missing e : forall fuel i cur cs, closure_loop fuel g fi i cur cs = GErr e -> missing e.
Proof.
  induction fuel as [|fuel IH]; intros i cur cs H; cbn [closure_loop] in H; [discriminate|]. destruct (nth_error cur i) as [cfp|]; [|discriminate].
  destruct (nth_error (r_rhs _) _) as [[sp al]|] eqn:Ep; [|eauto]. destruct (sy_kind (gsym g sp)) eqn:Ek; [eauto| |eauto].
  destruct (rules_of g sp) as [|r0 rs] eqn:Er.
  - destruct (Nat.eqb_spec sp (g_error g)) as [|Hne]; [eauto|]. injection H as <-. split; auto. apply rhs_in in Ep as [H1 H2]. eexists _, sp, al. splits; [exact H1|exact H2|].
    split; [|split; auto].
    + apply In_nth_error in H1 as [q Hq]. destruct (wg_rule g W _ _ Hq) as (_ & _ & HR). destruct (HR _ _ H2) as (HL & _).
      rewrite <- Ek. now apply gsym_kind_at.
    + intros ru Hru E. apply In_nth_error in Hru as [q Hq]. assert (Hin : In q (rules_of g sp)); [|rewrite Er in Hin; destruct Hin].
      unfold rules_of. apply filter_In. split; [apply in_seq; split; [lia|apply nth_error_Some; congruence]|]. unfold grule. rewrite (nth_error_nth _ _ _ Hq). now apply Nat.eqb_eq.
  - destruct (fold_left _ _ _) as [cur' cs']. eauto.
Qed.
Lemma shifts_missing e get : (forall b p, get b p = GErr e -> missing e) -> forall l aps p, build_shifts_loop g get l aps p = GErr e -> missing e.
Proof.
  intros HG. induction l as [|c l IH]; intros aps p H; cbn [build_shifts_loop] in H; [discriminate|]. destruct (c_complete _); [eauto|]. destruct (shift_sym g _) as [sp|]; [|eauto].
  destruct (shift_basis _ _ _ _ _) as [basis cs]. apply gbind_err in H as [H|([ns p'] & _ & H)]; eauto.
Qed.
Lemma state_missing e : forall fuel cur p, get_state fuel g fi cur p = GErr e -> missing e.
Proof.
  induction fuel as [|fuel IH]; intros cur p H; [discriminate|]. cbn [get_state] in H. destruct (state_find _ _); [discriminate|].
  apply gbind_err in H as [H|([cf cs] & _ & H)]; [eapply closure_missing; exact H|]. apply gbind_err in H as [H|([aps p2] & _ & H)]; [|discriminate].
  eapply shifts_missing; [|exact H]. intros b q Hq. eapply IH; eauto.
Qed.
Lemma states_err fuel e : find_states fuel g fi = GErr e -> missing e \/ e = EStartRhs /\ exists ru al, In ru (g_rules g) /\ In (g_start g, al) (r_rhs ru).
Proof.
  unfold find_states. destruct (existsb _ _) eqn:E.
  - injection 1 as <-. right. split; auto. apply existsb_exists in E as (ru & H1 & E). apply existsb_exists in E as ([X al] & H2 & E). apply Nat.eqb_eq in E. cbn in E. subst X. eauto.
  - intros H. left. destruct (start_basis g) as [basis cs]. apply gbind_err in H as [H|([s p] & _ & H)]; [|discriminate]. eapply state_missing; eauto.
Qed.
End States.

(** ** From the built grammar to the declarations *)
Section Back.
Context (ds : list decl) (g : grammar) (opts : list (nat * nat)) (DE : declared ds g opts) (W : wf_grammar g).
Lemma at_one X n m : at_name g X n -> at_name g X m -> n = m.
Proof. intros H1 H2. apply at_gname in H1, H2. congruence. Qed.

(** What an element of a right-hand side comes from; [b] says whether its value is used. *)
Lemma rhs_from ru X b : In ru (g_rules g) -> In (X, b) (r_rhs ru) ->
  (exists d e, In d (rules_in ds) /\ In e (d_rhs d) /\ elem_sym g opts e X /\
     (b = true -> alias_of e = true \/ d_code d = None /\ raw_type ds (d_lhs d) <> None /\ elem_typed ds e = true /\ has_type g X = true)) \/
  (exists d n al, In d (rules_in ds) /\ In ([n], true, al) (d_rhs d) /\ at_name g X n /\ (upper n \/ lower n)).
Proof.
  intros Hru HX. destruct (de_rules _ _ _ DE) as (rs & HR & HF). rewrite HR in Hru. apply in_app_iff in Hru as [Hru|Hru].
  - left. destruct (forall2_in_r _ _ _ HF _ Hru) as (d & Hd & RM).
    assert (HE : Forall2 (fun e p => elem_sym g opts e (fst p)) (d_rhs d) (r_rhs ru)).
    { pose proof (rm_rhs _ _ _ _ RM) as H. clear -H. revert H. generalize (d_rhs d). induction (r_rhs ru) as [|p l IH]; intros es H; inversion H; subst; constructor; auto. }
    assert (HT : forall e p, elem_sym g opts e p -> has_type g p = elem_typed ds e).
    { intros [[toks o] al] p. unfold elem_sym, elem_typed, has_type. destruct toks as [|tok [|tok2 toks]]; [intros []| |].
      - intros [Hid H]. destruct o; [destruct H as (Y & Hin & _); now rewrite (de_type_opt _ _ _ DE _ _ Hin)|now rewrite (de_type _ _ _ DE _ _ H Hid)].
      - intros (_ & H & _). now rewrite (de_type_anon _ _ _ DE _ H). }
    assert (HB : exists e, In e (d_rhs d) /\ elem_sym g opts e X /\ (map snd (r_rhs ru) = map alias_of (d_rhs d) -> b = alias_of e) /\
      (map snd (r_rhs ru) = map (fun p => has_type g (fst p)) (r_rhs ru) -> b = has_type g X)).
    { clear -HE HX. revert HE. generalize (d_rhs d). induction (r_rhs ru) as [|p l IH]; intros es H; [destruct HX|]. inversion H as [|x p' es' l' Hx Hrest E1 E2]; subst. destruct HX as [->|HX].
      - exists x. splits; auto; [now left|cbn; congruence|cbn; congruence].
      - destruct (IH HX _ Hrest) as (e & H1 & H2 & H3 & H5). exists e. splits; auto; [now right|cbn; intros E; apply H3; congruence|cbn; intros E; apply H5; congruence]. }
    destruct HB as (e & He & HS & B1 & B2). exists d, e. splits; auto. intros ->.
    pose proof (rm_code _ _ _ _ RM) as HC. destruct (d_code d) as [c|].
    + left. symmetry. apply B1, HC.
    + destruct HC as [(_ & _ & HC)|(_ & T1 & _ & HC & _)]; [left; symmetry; now apply B1|]. right. specialize (B2 HC). rewrite <- (HT _ _ HS). splits; auto.
      unfold has_type in T1. rewrite (de_type _ _ _ DE _ _ (rm_lhs _ _ _ _ RM) (or_intror (rm_low _ _ _ _ RM))) in T1. intros E. rewrite E in T1. discriminate.
  - right. apply in_flat_map in Hru as ([Y Z] & Hin & Hru). destruct Hru as [<-|[<-|[]]]; cbn in HX; [destruct HX|]. destruct HX as [E|[]]. injection E as -> <-.
    destruct (de_opt4 _ _ _ DE _ _ Hin) as (d & n & al & H1 & H2 & H3). exists d, n, al. splits; auto. destruct (de_opts _ _ _ DE _ _ Hin) as ((m & Hm & Hid) & _).
    now rewrite (at_one _ _ _ H3 Hm).
Qed.

Lemma states_fault fi fuel e : find_states fuel g fi = GErr e -> fault ds e.
Proof.
  intros H. apply states_err in H as [(-> & ru & X & al & Hru & HX & HK & HE & HN)|(-> & ru & al & Hru & HX)]; auto; cbn [fault].
  - assert (HC : forall n o a, has_elem ds ([n], o, a) -> at_name g X n -> upper n \/ lower n -> exists n o al, has_elem ds ([n], o, al) /\ is_nonterminal_ident n = true /\ n <> "error" /\
      forall r, In r (rules_in ds) -> d_lhs r <> n).
    { intros n o a H1 H2 [U|L].
      - exfalso. destruct (upper_kind _ _ _ DE _ _ H2 U) as [_ Hk]. now apply kind_at_gsym in HK.
      - exists n, o, a. splits; auto.
        + intros ->. apply HE. eapply (de_uniq _ _ _ DE); eauto; [apply (de_error _ _ _ DE)|discriminate].
        + intros r Hr <-. destruct (de_rules _ _ _ DE) as (rs & HR & HF). destruct (forall2_in_l _ _ _ HF _ Hr) as (ru' & Hru' & RM). apply (HN ru').
          * rewrite HR. apply in_app_iff. now left.
          * eapply (de_uniq _ _ _ DE); eauto; [apply RM|now apply lower_nonempty]. }
    destruct (rhs_from _ _ _ Hru HX) as [(d & [[toks o] a] & Hd & He & HS & _)|(d & n & a & Hd & He & Hn & Hid)].
    + unfold elem_sym in HS. destruct toks as [|n [|n2 toks]]; [destruct HS| |].
      * destruct HS as [Hid HS]. destruct o.
        -- exfalso. destruct HS as (Y & HY & _). destruct (de_rules _ _ _ DE) as (rs & HR & _). apply (HN (mkRule X [] COptNone None None)); auto. rewrite HR. apply in_app_iff. right.
           apply in_flat_map. exists (Y, X). split; auto. now left.
        -- apply (HC n false a); auto. now exists d.
      * exfalso. destruct HS as (_ & _ & ms & Hk & _). congruence.
    + apply (HC n true a); auto. now exists d.
  - destruct (de_start _ _ _ DE) as (n & Hs & Ha & Hl).
    destruct (rhs_from _ _ _ Hru HX) as [(d & [[toks o] a] & Hd & He & HS & _)|(d & m & a & Hd & He & Hn & Hid)].
    + unfold elem_sym in HS. destruct toks as [|m [|m2 toks]]; [destruct HS| |].
      * destruct HS as [Hid HS]. destruct o.
        -- exfalso. destruct HS as (Y & HY & _). destruct (de_opts _ _ _ DE _ _ HY) as (_ & k & Hk). apply (opt_not_id k n); [now right|]. eapply at_one; eauto.
        -- exists n, false, a. split; auto. exists d. rewrite (at_one _ _ _ Ha HS). auto.
      * exfalso. destruct HS as (_ & HS & _). rewrite (at_one _ _ _ Ha HS) in Hl. discriminate.
    + exists n, true, a. split; auto. exists d. rewrite (at_one _ _ _ Ha Hn). auto.
Qed.
End Back.

(** ** Steps that report nothing *)
Definition quiet {A} (x : gres A) : Prop := forall e, x <> GErr e.
Lemma quiet_bind {A B} (x : gres A) (k : A -> gres B) : quiet x -> (forall a, quiet (k a)) -> quiet (gbind x k).
Proof. intros H1 H2 e H. apply gbind_err in H as [H|(a & _ & H)]; [now apply (H1 e)|now apply (H2 a e)]. Qed.
Lemma quiet_fold {A S} (F : S -> A -> gres S) : (forall s a, quiet (F s a)) -> forall l s, quiet (gfold F l s).
Proof. intros H. induction l as [|a l IH]; intros s; cbn [gfold]; [intros e; discriminate|]. apply quiet_bind; auto. Qed.
Lemma quiet_ok {A} (a : A) : quiet (GOk a). Proof. intros e. discriminate. Qed.
Lemma quiet_first fuel g : quiet (find_first_sets fuel g).
Proof.
  apply quiet_bind.
  - generalize (repeat false (List.length (g_syms g))). induction fuel as [|fuel IH]; intros l e H; cbn [lambda_loop] in H; [discriminate|].
    destruct (fold_left _ _ _) as [l' pr]. destruct pr; [now apply (IH l' e)|discriminate].
  - intros lam. apply quiet_bind; [|intros fs; apply quiet_ok]. generalize (repeat (@nil nat) (List.length (g_syms g))). induction fuel as [|fuel IH]; intros l e H; cbn [first_loop] in H; [discriminate|].
    destruct (fold_left _ _ _) as [l' pr]. destruct pr; [now apply (IH l' e)|discriminate].
Qed.
Lemma quiet_follow fuel p : quiet (find_follow_sets fuel p).
Proof.
  apply quiet_bind; [|intros cs; apply quiet_ok]. generalize (reset_status (p_cfgs p) (all_configs p)). induction fuel as [|fuel IH]; intros l e H; cbn [follow_loop] in H; [discriminate|].
  destruct (fold_left _ _ _) as [l' pr]. destruct pr; [now apply (IH l' e)|discriminate].
Qed.
Lemma quiet_compress fuel g p : quiet (compress_tables fuel g p).
Proof.
  apply quiet_bind; [|intros s; apply quiet_ok]. apply quiet_fold. intros acc s. apply quiet_bind; [|intros; apply quiet_ok]. unfold compress_state. apply quiet_bind.
  - unfold ignored_actions. destruct (f_has_fb (g_fe g)); [|apply quiet_ok]. apply quiet_fold. intros ign a. apply quiet_bind; [|intros; apply quiet_ok].
    generalize (a_la a). induction fuel as [|fuel IH]; intros k e H; cbn [fallback_differs] in H; [discriminate|]. destruct (sy_fb (gsym g k)) as [fb|]; [|discriminate].
    destruct (find _ _) as [a2|]; [|now apply (IH fb e)]. destruct (detail_equal _ _); [now apply (IH fb e)|discriminate].
  - intros ign. destruct (b_rule _); [|apply quiet_ok]. destruct (b_wild _); apply quiet_ok.
Qed.
Lemma quiet_types g : quiet (type_symbols g).
Proof.
  apply quiet_fold. intros [[m syms] dts] i. unfold type_symbol. destruct (opt_eqb _ _ _); [apply quiet_ok|]. apply quiet_bind.
  - intros e H. destruct (sy_kind _) as [| |[|c ms]]; try discriminate. destruct (c =? i); discriminate.
  - intros dt. destruct (match dt with Some t => Some t | None => f_default_type (g_fe g) end) as [t|]; [|apply quiet_ok]. destruct (type_find m t); apply quiet_ok.
Qed.
Lemma quiet_pack g p : quiet (pack_states g p).
Proof.
  apply quiet_fold. intros k [[s b] n]. unfold pack_one. destruct (n =? 0); [apply quiet_ok|]. apply quiet_bind.
  - unfold insert_action_set. intros e. destruct (action_set _ _ _ _ _ _) as [|[mn mact] l]; discriminate.
  - intros [ofs tab]. destruct b; apply quiet_ok.
Qed.
Lemma quiet_ofst order ofs mn : quiet (ofst_table order ofs mn).
Proof. unfold ofst_table. intros e. destruct (rposition _ _); discriminate. Qed.

(** ** %token and %parser *)
Lemma rest_given fuel ds : forall f f', gfold (parse_one_decl fuel) ds f = GOk f' -> J f ->
  (forall n gs, f_token f' = Some (n, gs) -> f_token f = Some (n, gs) \/ In (DToken n gs) ds) /\
  (forall n gs, f_parser f' = Some (n, gs) -> f_parser f = Some (n, gs) \/ In (DParser n gs) ds).
Proof.
  induction ds as [|d ds IH]; intros f f' H HJ; cbn [gfold] in H; [injection H as <-; auto|]. apply gbind_ok in H as (f1 & H1 & H).
  pose proof (one_decl _ _ _ _ H1 HJ) as (J1 & _ & R & _). destruct (IH _ _ H J1) as [A1 A2].
  split; intros n gs E; [apply A1 in E|apply A2 in E]; (destruct E as [E|E]; [|right; now right]).
  - destruct d; cbn in R; injection R; intros; repeat match goal with E : _ f1 = _ |- _ => rewrite E in * end; auto.
    right. left. congruence.
  - destruct d; cbn in R; injection R; intros; repeat match goal with E : _ f1 = _ |- _ => rewrite E in * end; auto.
    right. left. congruence.
Qed.
Lemma keeps_rest f order n opts f' : optional_rules (extra_token_type f order n) opts = GOk f' -> f_token f' = f_token f /\ f_parser f' = f_parser f.
Proof.
  assert (H1 : f_token (extra_token_type f order n) = f_token f /\ f_parser (extra_token_type f order n) = f_parser f).
  { unfold extra_token_type. destruct (f_extra_token f); auto. generalize (seq 1 (n - 1)). intros l. revert f. induction l as [|i l IH]; intros f; cbn [fold_left]; auto.
    destruct (IH (set_syms f (upd (f_syms f) (nth i order 0) (fun s => sym_set_type (match sy_type s with None => Some t | Some dt => Some (TyPair t dt) end) s)))) as [-> ->]. auto. }
  destruct H1 as [<- <-]. generalize (extra_token_type f order n). clear. unfold optional_rules. intros f H. revert f f' H. induction opts as [|[r l] opts IH]; intros f f' H; cbn [gfold] in H.
  - now injection H as <-.
  - apply gbind_ok in H as (f3 & H3 & H). apply gbind_ok in H3 as (f2 & H2 & H3). unfold create_rule in H2, H3.
    destruct (sy_kind (get_sym _ l)); try discriminate. injection H2 as <-. destruct (sy_kind (get_sym _ l)); try discriminate. injection H3 as <-.
    apply IH in H. exact H.
Qed.

(** ** The checks of generate_source *)
Section Gen.
Context (ds : list decl) (g : grammar) (opts : list (nat * nat)) (DE : declared ds g opts) (W : wf_grammar g).
Hypothesis FU : forall n c, fallback_of ds n = Some c -> upper n.
Hypothesis WU : forall w, wildcard_of ds = Some w -> upper w.
Hypothesis TK : forall n gs, f_token (g_fe g) = Some (n, gs) -> In (DToken n gs) ds.
Hypothesis PK : forall n gs, f_parser (g_fe g) = Some (n, gs) -> In (DParser n gs) ds.
Notation n := (List.length (g_syms g)).

Lemma wild_at w : g_wild g = Some w -> exists x, wildcard_of ds = Some x /\ at_name g w x /\ upper x.
Proof. intros H. pose proof (de_wild _ _ _ DE) as D. rewrite H in D. destruct (wildcard_of ds) as [x|] eqn:E; [|contradiction]. exists x. splits; auto. Qed.

Lemma choice_dtype e X ms : flat g -> elem_sym g opts e X -> kind_at g X = Some (KMulti ms) -> ms <> [] -> choices ds e = Some (map (gname g) ms) /\ choice_type ds e = dtype g X.
Proof.
  intros FL HS Hk Hne. destruct e as [[toks o] al]. unfold elem_sym in HS. destruct toks as [|m [|m2 toks]]; [destruct HS| |].
  - destruct HS as [Hid HS]. destruct o.
    + exfalso. destruct HS as (Y & HY & _). destruct (de_opts _ _ _ DE _ _ HY) as (_ & k & Hk'). rewrite (opt_nonterm _ _ _ DE _ _ Hk') in Hk. discriminate.
    + assert (Hm : m <> "") by (destruct Hid; [now apply upper_nonempty|now apply lower_nonempty]). destruct (sym_decl _ _ _ DE _ _ HS Hm) as (_ & _ & E).
      rewrite (kind_at_gsym _ _ _ Hk) in E. cbn in E. split; [cbn; congruence|]. cbn. symmetry. now apply (dtype_name ds g opts DE W).
  - destruct HS as (HU & Hn & ms' & Hk' & HF). rewrite Hk in Hk'. injection Hk' as <-.
    assert (EM : map (gname g) ms = m :: m2 :: toks).
    { clear -HF. induction HF as [|i x l l' H HF IH]; cbn; auto. f_equal; auto. now apply at_gname. }
    split; [now rewrite EM|]. inversion HF as [|c x l l' Hc HF' E1 E2]; subst. cbn [choice_type].
    assert (Hu : upper m) by (now inversion HU). rewrite <- (dtype_name ds g opts DE W _ _ Hc (or_introl Hu)).
    assert (Hkc : sy_kind (gsym g c) = KTerm) by (apply kind_at_gsym; apply (FL _ _ c Hk); now left).
    unfold dtype at 2. assert (EW : wild g X = false).
    { destruct (wild g X) eqn:E; auto. apply wild_iff in E. destruct (wild_at _ E) as (x & _ & Hx & Ux). rewrite (at_one _ _ _ _ Hx Hn) in Ux. now apply upper_empty in Ux. }
    rewrite EW, (kind_at_gsym _ _ _ Hk). f_equal; [|now rewrite (de_dflt _ _ _ DE)]. unfold dtype. rewrite Hkc. unfold own_type. now destruct (wild g c).
Qed.

Theorem generate_fault p e : (e = EFallbackType \/ e = ECompoundAlias -> flat_decls ds) -> generate_source g p = GErr e -> fault ds e.
Proof.
  intros HFL H. unfold generate_source in H. apply gbind_err in H as [H|(w & Hw & H)].
  { destruct (g_wild g) as [w|] eqn:Ew; [|discriminate]. destruct (has_type g w) eqn:Et; [|discriminate]. injection H as <-. destruct (wild_at _ Ew) as (x & E & Hx & Ux).
    exists x. split; auto. unfold has_type in Et. rewrite (de_type _ _ _ DE _ _ Hx (or_introl Ux)) in Et. intros E0. rewrite E0 in Et. discriminate. }
  assert (HW : forall v, g_wild g = Some v -> has_type g v = false).
  { intros v Ev. rewrite Ev in Hw. destruct (has_type g v); auto. discriminate. }
  clear Hw. apply gbind_err in H as [H|([[m syms] dts] & HT & H)]; [now apply quiet_types in H|].
  apply gbind_err in H as [H|([] & Ht & H)].
  { destruct (f_token (g_fe g)) as [[k gs]|] eqn:E; cbn in H; [|discriminate]. destruct (Nat.eqb_spec k 0) as [|Hk]; [discriminate|]. injection H as <-. exists k, gs. split; auto. }
  apply gbind_err in H as [H|([] & Hp & H)].
  { destruct (f_parser (g_fe g)) as [[k gs]|] eqn:E; cbn in H; [|discriminate]. destruct (Nat.eqb_spec k 0) as [|Hk]; [discriminate|]. injection H as <-. exists k, gs. split; auto. }
  apply gbind_err in H as [H|([] & Hg & H)].
  { destruct (forallb _ _) eqn:EF; [discriminate|]. injection H as <-. cbn.
    assert (HX : exists x, In x (snd match f_token (g_fe g) with Some t => t | None => (0, []) end) /\ ~ In x (snd match f_parser (g_fe g) with Some t => t | None => (0, snd match f_token (g_fe g) with Some t => t | None => (0, []) end) end)).
    { apply not_true_iff_false in EF. revert EF. generalize (snd match f_token (g_fe g) with Some t => t | None => (0, []) end) at 2 3. intros l. generalize (snd match f_parser (g_fe g) with Some t => t | None => (0, snd match f_token (g_fe g) with Some t => t | None => (0, []) end) end). intros k.
      induction l as [|x l IH]; cbn; intros EF; [now destruct EF|]. destruct (existsb (String.eqb x) k) eqn:Ex.
      - destruct IH as (y & H1 & H2); [intros HX; apply EF; now rewrite HX|]. exists y. auto.
      - exists x. split; auto. intros Hin. apply not_true_iff_false in Ex. apply Ex. apply existsb_exists. exists x. split; auto. apply String.eqb_refl. }
    destruct HX as (x & H1 & H2). destruct (f_token (g_fe g)) as [[k gs]|] eqn:E1; [|destruct H1]. destruct (f_parser (g_fe g)) as [[k' hs]|] eqn:E2; [|now destruct H2].
    exists k, gs, k', hs, x. splits; auto. }
  clear Ht Hp Hg. apply gbind_err in H as [H|(k & _ & H)]; [now apply quiet_pack in H|]. apply gbind_err in H as [H|(so & _ & H)]; [now apply quiet_ofst in H|].
  apply gbind_err in H as [H|(ro & _ & H)]; [now apply quiet_ofst in H|]. apply gbind_err in H as [H|(fb & _ & H)].
  { unfold fallback_table in H. apply gfold_err in H as (l1 & i & l2 & acc & _ & _ & H). destruct (sy_fb (nth i syms dummy_sym)) as [c|] eqn:Ec; [|discriminate].
    destruct (_ || _) eqn:Eo; [discriminate|]. injection H as <-. assert (FL : flat g) by (apply (decls_flat ds g opts DE W); auto). apply orb_false_iff in Eo as [Eo1 Eo2]. apply Nat.eqb_neq in Eo1, Eo2.
    pose proof (type_symbols_inv g W FL HW _ _ _ HT) as I. destruct (ti_kind _ _ _ _ _ I i) as (_ & _ & E3). rewrite E3 in Ec.
    assert (Li : i < n) by (destruct (Nat.lt_ge_cases i n) as [L|L]; auto; unfold gsym in Ec; rewrite nth_overflow in Ec by auto; discriminate).
    pose proof (gname_at g _ Li) as Hi. assert (Hs : nth_error (g_syms g) i = Some (gsym g i)) by (unfold gsym; now apply nth_error_nth'). destruct (wg_fb g W _ _ _ Hs Ec) as (_ & Lc & _).
    destruct (string_dec (gname g i) "") as [E0|Hne].
    { destruct (de_anon _ _ _ DE _ _ Hs E0) as (_ & EN & _). congruence. }
    destruct (de_sym _ _ _ DE _ _ Hs Hne) as (_ & EF & _). rewrite Ec in EF. cbn in EF. fold (gname g i) in EF. symmetry in EF. pose proof (FU _ _ EF) as Ui.
    pose proof (de_fbname _ _ _ DE _ _ _ Hs Ec) as Uc. exists (gname g i), (gname g c). split; auto.
    rewrite <- (dtype_name ds g opts DE W _ _ Hi (or_introl Ui)), <- (dtype_name ds g opts DE W _ _ (gname_at g _ Lc) (or_introl Uc)). split.
    - intros E. apply Eo1. now apply (zero_number g W FL HW _ _ _ _ HT Lc).
    - intros E. apply Eo2. now apply (same_number g W FL HW _ _ _ _ _ HT Lc Li). }
  apply gbind_err in H as [H|(rr & _ & H)]; [|discriminate]. unfold gmapM in H. apply gfold_err in H as (l1 & ru & l2 & acc & El & _ & H).
  assert (Hru : In ru (g_rules g)) by (rewrite El; apply in_app_iff; right; now left). clear El l1 l2. apply gbind_err in H as [H|(b & _ & H)]; [|discriminate].
  unfold translate_code in H. apply gbind_err in H as [H|([] & _ & H)].
  { apply gfold_err in H as (l1 & [X al] & l2 & acc2 & El & _ & H). assert (HX : In (X, al) (r_rhs ru)) by (rewrite El; apply in_app_iff; right; now left). clear El l1 l2.
    cbn [fst snd] in H. destruct (sy_kind (gsym g X)) as [| |ms] eqn:Ek; try discriminate. destruct al; [|discriminate]. destruct (forallb _ (tl ms)) eqn:EF; [discriminate|]. injection H as <-.
    assert (FL : flat g) by (apply (decls_flat ds g opts DE W); auto).
    assert (HO : exists o, In o (tl ms) /\ nth X dts 0 <> nth o dts 0).
    { apply not_true_iff_false in EF. clear -EF. induction (tl ms) as [|x l IH]; cbn in EF; [now destruct EF|]. destruct (Nat.eqb_spec (nth X dts 0) (nth x dts 0)) as [E|E].
      - destruct IH as (o & H1 & H2); [exact EF|]. exists o. split; auto. now right.
      - exists x. split; auto. now left. }
    destruct HO as (o & Ho & Hd). destruct ms as [|c ms]; [destruct Ho|]. cbn in Ho.
    assert (LX : X < n) by (apply In_nth_error in Hru as [r Hr]; destruct (wg_rule g W _ _ Hr) as (_ & _ & HR); now destruct (HR _ _ HX)).
    assert (HK : kind_at g X = Some (KMulti (c :: ms))) by (rewrite <- Ek; now apply gsym_kind_at).
    destruct (wg_multi g W _ _ o HK (or_intror Ho)) as (Lo & _). pose proof (de_multi _ _ _ DE _ _ _ HK (or_intror Ho)) as Uo.
    assert (HN : name_type ds (gname g o) <> dtype g X).
    { rewrite <- (dtype_name ds g opts DE W _ _ (gname_at g _ Lo) (or_introl Uo)). intros E. apply Hd. symmetry. now apply (same_number g W FL HW _ _ _ _ _ HT Lo LX). }
    assert (HC : exists d e, In d (rules_in ds) /\ In e (d_rhs d) /\ reads ds d e /\ choices ds e = Some (map (gname g) (c :: ms)) /\ choice_type ds e = dtype g X).
    { destruct (rhs_from ds g opts DE _ _ _ Hru HX) as [(d & e & Hd' & He & HS & HB)|(d & x & a & Hd' & He & Hx & Hid)].
      - destruct (choice_dtype e X (c :: ms) FL HS HK) as [E1 E2]; [discriminate|]. exists d, e. splits; auto. specialize (HB eq_refl). unfold reads. intuition auto.
      - exists d, ([x], true, a). splits; auto; [right; left; eauto| |]; cbn.
        + assert (Hm : x <> "") by (destruct Hid; [now apply upper_nonempty|now apply lower_nonempty]). destruct (sym_decl _ _ _ DE _ _ Hx Hm) as (_ & _ & E). rewrite Ek in E. cbn in E. now symmetry.
        + symmetry. now apply (dtype_name ds g opts DE W). }
    destruct HC as (d & e & H1 & H2 & H3 & H4 & H5). exists d, e, (gname g c), (map (gname g) ms), (gname g o). splits; auto; [now apply in_map|congruence]. }
  apply gbind_err in H as [H|([] & _ & H)]; [|discriminate].
  apply gfold_err in H as (l1 & [X al] & l2 & acc2 & El & _ & H). assert (HX : In (X, al) (r_rhs ru)) by (rewrite El; apply in_app_iff; right; now left). clear El l1 l2.
  cbn [fst snd] in H. destruct al; [|discriminate]. destruct (g_wild g) as [v|] eqn:Ev; cbn in H; [|discriminate]. destruct (Nat.eqb_spec X v) as [->|]; [|discriminate]. injection H as <-.
  destruct (wild_at _ Ev) as (x & Ex & Hx & Ux). cbn [fault].
  destruct (rhs_from ds g opts DE _ _ _ Hru HX) as [(d & [[toks o] a] & Hd' & He & HS & HB)|(d & y & a & Hd' & He & Hy & Hid)].
  - specialize (HB eq_refl). rewrite (HW _ eq_refl) in HB. destruct HB as [HB|(_ & _ & _ & HB)]; [|discriminate]. unfold elem_sym in HS. destruct toks as [|y [|y2 toks]]; [destruct HS| |].
    + destruct HS as [Hid HS]. destruct o.
      * exfalso. destruct HS as (Y & HY & _). destruct (de_opts _ _ _ DE _ _ HY) as (_ & k' & Hk'). apply (opt_not_id k' x); [now left|]. eapply at_one; eauto.
      * exists x, false, a. splits; auto; [exists d; split; auto; now rewrite (at_one _ _ _ _ Hx HS)|]. right. intros ->. discriminate.
    + exfalso. destruct HS as (_ & HS & _). rewrite (at_one _ _ _ _ Hx HS) in Ux. now apply upper_empty in Ux.
  - exists x, true, a. splits; auto. exists d. split; auto. now rewrite (at_one _ _ _ _ Hx Hy).
Qed.
End Gen.

(** ** Every precedence comes from a line, and a line has one word *)
Lemma assoc_from_gt : forall ds k n i u, assoc_from k ds n = Some (i, u) -> k < i.
Proof.
  induction ds as [|d ds IH]; intros k n i u H; cbn in H; [discriminate|]. destruct d; try (now apply IH in H).
  destruct (listed n ids); [injection H as <- _; lia|]. apply IH in H. lia.
Qed.
Lemma assoc_from_word : forall ds k n m i u v, assoc_from k ds n = Some (i, u) -> assoc_from k ds m = Some (i, v) -> u = v.
Proof.
  induction ds as [|d ds IH]; intros k n m i u v H1 H2; cbn in H1, H2; [discriminate|]. destruct d; try (now apply (IH k n m i)).
  destruct (listed n ids), (listed m ids).
  - congruence.
  - injection H1 as <- _. apply assoc_from_gt in H2. lia.
  - injection H2 as <- _. apply assoc_from_gt in H1. lia.
  - now apply (IH (S k) n m i).
Qed.
Section Words.
Context (ds : list decl) (g : grammar) (opts : list (nat * nat)) (DE : declared ds g opts).
Lemma sym_line a q : sy_prec (gsym g a) = Some q -> exists n, assoc_of ds n = Some q.
Proof.
  intros H. unfold gsym in H. destruct (nth_error (g_syms g) a) as [s|] eqn:E; [|apply nth_error_None in E; rewrite nth_overflow in H by auto; discriminate].
  rewrite (nth_error_nth _ _ _ E) in H. destruct (String.eqb_spec (sy_name s) "") as [En|En].
  - destruct (de_anon _ _ _ DE _ _ E En) as (P & _). congruence.
  - destruct (de_sym _ _ _ DE _ _ E En) as (P & _). rewrite P in H. eauto.
Qed.
Lemma rhs_line X q : rhs_sym_prec g X = Some q -> exists n, assoc_of ds n = Some q.
Proof.
  unfold rhs_sym_prec. destruct (sy_kind (gsym g X)) as [| |ms]; intros H; try (now apply sym_line in H). induction ms as [|m ms IH]; cbn in H; [discriminate|].
  destruct (sy_prec (gsym g m)) eqn:E; [|auto]. injection H as ->. now apply sym_line in E.
Qed.
Lemma rule_line r q : r_prec (grule g r) = Some q -> exists n, assoc_of ds n = Some q.
Proof.
  intros H. unfold grule in H. destruct (nth_error (g_rules g) r) as [ru|] eqn:E; [|apply nth_error_None in E; rewrite nth_overflow in H by auto; discriminate].
  rewrite (nth_error_nth _ _ _ E) in H. destruct (de_rules _ _ _ DE) as (rs & Er & HF). apply nth_error_In in E. rewrite Er in E. apply in_app_iff in E as [E|E].
  - destruct (GramFacts.forall2_in_r _ _ _ HF _ E) as (d & _ & RM). rewrite (rm_prec _ _ _ _ RM) in H. destruct (r_precsym ru) as [ps|]; [now apply sym_line in H|].
    induction (r_rhs ru) as [|[X al] l IH]; cbn in H; [discriminate|]. destruct (rhs_sym_prec g X) eqn:EX; [|auto]. injection H as ->. now apply rhs_line in EX.
  - apply in_flat_map in E as (pr & _ & E). cbn in E. destruct E as [<-|[<-|[]]]; cbn in H; [discriminate|]. now apply rhs_line in H.
Qed.
Lemma one_word i u v : some_prec g (i, u) -> some_prec g (i, v) -> u = v.
Proof.
  assert (H : forall q, some_prec g q -> exists n, assoc_of ds n = Some q) by (intros q [[a H]|[r H]]; [eapply sym_line|eapply rule_line]; eauto).
  intros H1 H2. apply H in H1 as [n H1], H2 as [m H2]. eapply assoc_from_word; eauto.
Qed.
End Words.

(** ** The whole macro *)
(** A grammar is rejected only for the fault that the error names.  (If classes are listed in
    classes or alternatives, the types compared for EFallbackType and ECompoundAlias depend on
    the order of the symbols, so these two are stated for flat declarations.) *)
Theorem rejected_for_a_reason fuel ord ds e : hash_order ord -> (e = EFallbackType \/ e = ECompoundAlias -> flat_decls ds) ->
  build fuel ord ds = GErr e -> fault ds e.
Proof.
  intros Ho HFL H. unfold build in H. apply gbind_err in H as [H|(f & Hf & H)]; [eapply front_fault; eauto|].
  destruct (read_decls _ _ _ Hf) as (f0 & Hd & RA). pose proof (new_from_decls_spec _ _ _ Hf) as D. unfold build_fe in H.
  apply gbind_err in H as [H|(g0 & H0 & H)]; [now apply prepare_no_err in H|]. apply gbind_err in H as [H|(g & H1 & H)]; [eapply typed_fault; eauto|].
  pose proof (prepared_wf _ _ _ _ D Ho H0 H1) as W. destruct (front_declared _ _ _ _ _ _ Ho Hf H0 H1) as (opts & DE).
  apply gbind_err in H as [H|(fi & Hfi & H)]; [now apply quiet_first in H|]. pose proof (find_first_sets_exact _ g fi W Hfi) as F.
  apply gbind_err in H as [H|(p1 & Hp1 & H)]; [eapply states_fault; eauto|]. apply gbind_err in H as [H|(p2 & Hp2 & H)]; [now apply quiet_follow in H|].
  pose proof (aut_main g fi W F p1 p2 fuel fuel Hp1 Hp2) as A.
  apply gbind_err in H as [H|([p3 nc] & H3 & H)].
  { apply (lost_found g W p2 A) in H as (-> & r & Hr). exists g, r. splits; eauto. split; eauto. exists ord. split; auto. exists fuel, f, g0. auto. }
  destruct (Nat.ltb_spec 0 nc) as [Hnc|Hnc].
  { injection H as <-. exists g. split; [split; eauto; exists ord; split; auto; exists fuel, f, g0; auto|]. apply (conflict_exact g W p2 A (one_word ds g opts DE) _ _ H3). exact Hnc. }
  apply gbind_err in H as [H|(p4 & H4 & H)]; [now apply quiet_compress in H|]. apply gbind_err in H as [H|(t & _ & H)]; [|discriminate].
  destruct (rest_given _ _ _ _ Hd J_init) as [T1 T2]. assert (ER : f_token (g_fe g) = f_token f /\ f_parser (g_fe g) = f_parser f).
  { apply normalize_rules_spec in H1 as (_ & _ & _ & _ & _ & _ & E7 & _). rewrite E7. cbn. unfold prepare in H0. apply gbind_ok in H0 as (f2 & H2 & H0). injection H0 as <-. cbn. eapply keeps_rest; eauto. }
  rewrite (ra_eq _ _ _ RA) in ER. cbn in ER. destruct ER as [ER1 ER2].
  eapply (generate_fault ds g opts DE W); eauto.
  - intros n c Hn. apply GramFacts.first_of_in in Hn as (d & Hin & E). destruct d; try discriminate. destruct (listed n ids) eqn:El; [|discriminate]. apply listed_in in El.
    destruct (GramFacts.gfold_each _ _ _ _ Hd _ Hin) as (s1 & s2 & HX). cbn [parse_one_decl] in HX. apply gbind_ok in HX as ([syms f1] & HX & _). destruct (GramFacts.gfold_each _ _ _ _ HX _ El) as ([s3 f3] & s4 & HY). cbn beta in HY.
    destruct (is_terminal_ident n) eqn:U; [exact U|discriminate].
  - intros w Hw. apply GramFacts.first_of_in in Hw as (d & Hin & E). destruct d; try discriminate. injection E as ->.
    destruct (GramFacts.gfold_each _ _ _ _ Hd _ Hin) as (s1 & s2 & HX). cbn [parse_one_decl] in HX. destruct (opt_is_some _); [discriminate|]. destruct (is_terminal_ident w) eqn:U; [exact U|discriminate].
  - intros n gs E. rewrite ER1 in E. destruct (T1 _ _ E) as [E0|]; auto. discriminate.
  - intros n gs E. rewrite ER2 in E. destruct (T2 _ _ E) as [E0|]; auto. discriminate.
Qed.
