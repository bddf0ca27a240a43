(** What holds of the parser the macro generates, from the declarations alone.  The
    statements mention the declarations, the generated tables and the public API; the
    grammar and the automaton inside the macro appear only in the proofs. *)
From Coq Require Import Permutation.
From Verif Require Import Base Syntax BaseFacts FrontEnd First States Actions Tables Runtime User Spec WfGrammar FirstFacts ClosureFacts AutoFacts LalrFacts ActFacts CompFacts LookFacts PipeFacts RunFacts FrontFacts
  SoundFacts SafeFacts BuildFacts AbsFacts HaltFacts TermFacts CompleteFacts CleanFacts RefFacts DeclSpec DeclFacts GramFacts LangFacts TypeFacts MeanSpec MeanFacts TypeDecl.
Open Scope string_scope. Open Scope nat_scope. Open Scope list_scope.

(** The macro accepts the declarations [ds] and generates [b]: some fuel suffices for its
    loops, and its HashMap is iterated in some order. *)
Definition expands (ds : list decl) (b : built) : Prop := exists fuel ord, hash_order ord /\ build fuel ord ds = GOk b.

(** The conditions under which the generated tables are right; the macro does not check them
    (Refutations.v shows that each is needed): no class lists a class, no token falls back to
    itself, and no row of the packed table was put on top of another one. *)
Record usable (ds : list decl) (b : built) : Prop := {
  us_flat : flat_decls ds;
  us_fb : no_self_fallback ds;
  us_rows : rows_apart b }.

(** The variant of the generated token type, and what is read from the input: the name and the
    data of each token, [()] for a variant without data. *)
Definition tok_name (b : built) (i : nat) : ident := nth i (t_names (bt_tables b)) "".
Definition names {V} (b : built) (ks : list (token V)) : list ident := map (fun k => tok_name b (fst k)) ks.
Definition payload {V X E} (sm : sem V X E) (k : token V) : V := match snd k with Some v => v | None => v_unit sm end.
Definition reading {V X E} (b : built) (sm : sem V X E) (ks : list (token V)) : list (ident * V) := map (fun k => (tok_name b (fst k), payload sm k)) ks.
(** The tokens a program can build *)
Definition tokens_wf {V} (b : built) (ks : list (token V)) : Prop := Forall (token_wf (bt_tables b)) ks.

(** What end_of_input returns for the value [v] of the start symbol: [()] if it has no type. *)
Definition root_value {V X E} (ds : list decl) (sm : sem V X E) (s : ident) (v : V) : V :=
  match name_type ds s with Some _ => v | None => v_unit sm end.

Section Build.
Context (ds : list decl) (b : built).
Notation g := (bt_grammar b). Notation t := (bt_tables b).
Hypothesis EX : expands ds b.
Hypothesis US : usable ds b.

Lemma ex_wf : wf_grammar g.
Proof. destruct EX as (fuel & ord & Ho & H). eapply build_wf; eauto. Qed.
Lemma ex_decl : exists opts, declared ds g opts.
Proof. destruct EX as (fuel & ord & Ho & H). eapply build_declared; eauto. Qed.
Lemma ex_aut : Aut g (bt_auto b).
Proof. destruct EX as (fuel & ord & Ho & H). eapply build_aut; eauto. Qed.
Lemma ex_pipe : Pipe g (bt_auto b) (bt_acts b) (bt_comp b) t.
Proof.
  destruct EX as (fuel & ord & Ho & H). eapply build_pipe; eauto. destruct US as [U1 U2 U3], ex_decl as (opts & DE). constructor; auto. eapply decls_flat; eauto. apply ex_wf.
Qed.
Lemma ex_start : rules_of g (g_start g) <> [].
Proof. destruct EX as (fuel & ord & Ho & H). eapply start_rules; eauto. Qed.
Lemma ex_assoc : forall n p, assoc_of ds n = Some p -> upper n.
Proof. destruct EX as (fuel & ord & Ho & H). eapply assoc_upper; eauto. Qed.
Lemma ex_sane : types_ok ds -> type_sane g.
Proof.
  intros TO. destruct ex_decl as (opts & DE). eapply types_sane; eauto; [apply ex_wf|]. destruct EX as (fuel & ord & Ho & H). eapply fallback_upper; eauto.
Qed.
Lemma ex_auto : auto_one g.
Proof. destruct ex_decl as (opts & DE). eapply declared_auto; eauto. Qed.

Lemma nterm_eq : t_nterm t = g_nterm g.
Proof. apply (t_nt _ _ _ _ _ ex_pipe). Qed.
Lemma name_eq i : i < g_nterm g -> tok_name b i = gname g i.
Proof.
  intros H. destruct (pp_gen _ _ _ _ _ ex_pipe) as (k & m & sy & dt & G & _). unfold tok_name. rewrite (gn_names _ _ _ _ _ _ _ G).
  pose proof (type_symbols_inv g ex_wf (pp_flat _ _ _ _ _ ex_pipe)) as HI. destruct (gen_types g _ _ _ _ ex_pipe) as (m' & sy' & HT & I & _).
  pose proof (gn_types _ _ _ _ _ _ _ G) as HT'. rewrite <- (gn_dts _ _ _ _ _ _ _ G) in HT'. assert (sy' = sy) by congruence. subst sy'.
  pose proof (wg_dflt_range g ex_wf) as Ln. assert (L : i < List.length (firstn (g_nterm g) sy)) by (rewrite firstn_length, (ti_len _ _ _ _ _ I); lia).
  rewrite (nth_indep _ "" (sy_name dummy_sym)) by (now rewrite map_length). rewrite map_nth. unfold gname. destruct (ti_kind _ _ _ _ _ I i) as (_ & <- & _). f_equal.
  rewrite <- (firstn_skipn (g_nterm g) sy) at 2. now rewrite app_nth1.
Qed.

Lemma reading_eq {V X E} (sm : sem V X E) ks : tokens_wf b ks ->
  map (fun q : nat * (nat * V) => (gname g (fst q), snd (snd q))) (map (token_value t sm) ks) = reading b sm ks /\
  map (fun q : nat * (nat * V) => gname g (fst q)) (map (token_value t sm) ks) = names b ks /\ toks_ok g (map (token_value t sm) ks).
Proof.
  induction 1 as [|k ks [Hk _] HF IH]; cbn; [splits; auto; intros ? ? []|]. destruct IH as (-> & -> & IH). rewrite nterm_eq in Hk. splits; try (rewrite name_eq by lia; auto).
  intros a m [E0|Hin]; [|eapply IH; eauto]. injection E0 as <- <-. auto.
Qed.
Lemma toks_tokens {M} (ts : list (nat * M)) : toks_ok g ts -> tokens_ok g ts.
Proof. intros H. exact H. Qed.
Lemma tokval_all {V X E} (sm : sem V X E) ks : tokens_wf b ks -> forall a m, In (a, m) (map (token_value t sm) ks) -> 0 < a < g_nterm g /\ tokval g t (fun _ _ => true) a m.
Proof.
  intros HF a m Hin. apply in_map_iff in Hin as (k & Ek & Hk). unfold tokens_wf in HF. rewrite Forall_forall in HF. destruct (HF k Hk) as [Hr _]. rewrite nterm_eq in Hr. injection Ek as <- <-. pose proof (wg_dflt_range g ex_wf).
  splits; try lia. split; [lia|]. split; auto. unfold vfits. now destruct (dtype g (fst k)).
Qed.

(** The value returned for a tree of the start symbol *)
Lemma root_eq {V X E} (sm : sem V X E) (mt : nat -> nat -> Prop) tr x x' m r s : (forall a Y, mt a Y -> tok_match g a Y) -> derives g mt (g_start g) tr -> eval (user_hooks t sm) tr x = EvOk x' m -> h_accept (user_hooks t sm) m = Some r ->
  start_of ds = Some s -> r = root_value ds sm s (snd m).
Proof.
  intros MT HD He Ha Hs. destruct ex_decl as (opts & DE). destruct (de_start _ _ _ DE) as (s' & Hs' & As & Low). assert (s' = s) by congruence. subst s'.
  assert (Ls : g_start g < List.length (g_syms g)) by (eapply at_lt; eauto).
  assert (Hm : fst m = dt_of t (g_start g)).
  { inversion HD as [a v Y Hm|q ru ts Hr Hts El]; subst.
    - exfalso. apply MT in Hm. destruct (wg_start g ex_wf) as [K _]. destruct Hm as [(c & _ & Hc)|(w & _ & Hc)]; now apply member_not_nonterm in Hc.
    - rewrite eval_node in He. destruct (eval_list _ ts x) as [x1 vs|? ?|]; try discriminate. unfold finish in He. destruct (h_reduce _ q vs x1) as [[x2 [v|e]]|] eqn:Eh; try discriminate. injection He as -> ->.
      assert (Lr : q < List.length (g_rules g)) by (apply nth_error_Some; congruence). destruct (rule_entry _ _ _ _ _ ex_pipe q Lr) as (rr & Hrr & HL & _ & _ & Hdt & _).
      cbn in Eh. unfold rule_reduce in Eh. rewrite (nth_error_nth _ _ _ Hrr) in Eh. destruct (match_args _ vs); [|discriminate]. destruct (run_code _ _ _ x1) as [[x3 [v|e]]|]; try discriminate.
      injection Eh as _ <-. cbn. rewrite Hdt. unfold grule. now rewrite (nth_error_nth _ _ _ Hr). }
  unfold root_value. rewrite <- (dtype_name ds g opts DE ex_wf _ _ As) by auto. cbn in Ha.
  destruct (gen_types _ _ _ _ _ ex_pipe) as (mm & sy & HT & I & HW & _ & ER & _). rewrite ER, (ti_done _ _ _ _ _ I _ Ls Ls) in Ha. pose proof (ti_map _ _ _ _ _ I _ Ls Ls) as HM. destruct (dtype g (g_start g)) as [ty|] eqn:Ed.
  - destruct (type_find mm ty) as [k|] eqn:Ef.
    + destruct (fst m =? k); [|discriminate]. now injection Ha as <-.
    + exfalso. eapply type_find_none; eauto.
  - destruct (type_find mm TyUnit) as [k|] eqn:Ef; [|now injection Ha as <-]. destruct (fst m =? k) eqn:Ek; [|discriminate]. apply Nat.eqb_eq in Ek. exfalso. apply type_find_some in Ef.
    apply In_nth_error in Ef as [j Hj]. apply (ti_num _ _ _ _ _ I) in Hj. unfold dt_of in Hm. lia.
Qed.

(** C01 *)
Theorem accepted_means {V X E} (sm : sem V X E) n x ks r x' pp : tokens_wf b ks -> api_run n t sm x ks = ROk (r, x') pp -> ~ dropped pp ->
  exists s v, start_of ds = Some s /\ means ds sm (taken ds) s (reading b sm ks) x x' v /\ r = root_value ds sm s v.
Proof.
  intros Hk H Hd. destruct (reading_eq sm ks Hk) as (ER & _ & Hok). destruct ex_decl as (opts & DE). destruct (de_start _ _ _ DE) as (s & Hs & As & Low).
  destruct (run_sound _ _ _ _ _ ex_pipe _ n x _ r x' pp Hok H Hd) as (tree & m & [HD Hy] & He & Ha). exists s, (snd m). splits; auto.
  - rewrite <- ER, <- Hy. refine (proj1 (proj1 (tree_means ds g opts DE _ _ _ _ ex_pipe sm _ _ (linked_taken ds g opts DE ex_wf)) _ _ HD _ _ _ _ He) s As (or_intror Low)). exact (eq_ind_r (fun l => toks_ok g l) Hok Hy).
  - eapply root_eq; eauto.
Qed.

(** ** Grammars without precedences and wildcard *)
Definition plain (ds : list decl) : Prop := (forall n, assoc_of ds n = None) /\ wildcard_of ds = None.

Lemma direct_match a Y : direct g a Y -> tok_match g a Y.
Proof. intros [_ H]. left. exists a. split; auto. constructor. Qed.
Lemma ex_settled : forall s, s < List.length (p_states (bt_auto b)) -> settled g (bt_auto b) (bt_acts b) s.
Proof. apply (pp_settled _ _ _ _ _ ex_pipe). Qed.
Lemma ex_single : plain ds -> single g (bt_auto b).
Proof. intros [H _]. destruct ex_decl as (opts & DE). eapply clean_single; [apply ex_aut|apply ex_settled|]. eapply decls_clean; eauto. Qed.

(** A meaning of a token string as a tree of the grammar *)
Lemma means_start {V X E} (sm : sem V X E) ks s x x' v : types_ok ds -> tokens_wf b ks -> start_of ds = Some s -> means ds sm eq s (reading b sm ks) x x' v ->
  exists tr m, derives g (direct g) (g_start g) tr /\ yield tr = map (token_value t sm) ks /\ eval (user_hooks t sm) tr x = EvOk x' m /\ snd m = v /\
    h_accept (user_hooks t sm) m = Some (root_value ds sm s v).
Proof.
  intros TO Hk Hs HM. destruct (reading_eq sm ks Hk) as (ER & _ & Hok). destruct ex_decl as (opts & DE). destruct (de_start _ _ _ DE) as (s' & Hs' & As & Low). assert (s' = s) by congruence. subst s'.
  destruct (proj1 (means_tree ds g opts DE _ _ _ _ ex_pipe sm _ _ (linked_direct ds g opts DE ex_wf) (ex_sane TO) ex_auto direct_match) _ _ _ _ _ HM (g_start g) _ As ER Hok) as (tr & m & HD & Hy & He & Hv & HS).
  { intros a m Hin. now apply (tokval_all sm ks Hk a m). }
  exists tr, m. splits; auto. destruct (h_accept (user_hooks t sm) m) as [r|] eqn:Ea.
  - f_equal. rewrite <- Hv. eapply (root_eq sm (direct g)); eauto. exact direct_match.
  - exfalso. apply (val_acc g _ _ _ _ ex_pipe (ex_sane TO) sm _ m HS Ea).
Qed.

Lemma peaceful_calm e : CompleteFacts.calm e -> peaceful e.
Proof. destruct e; cbn; auto. Qed.

(** C02 *)
Theorem sentence_accepted {V X E} (sm : sem V X E) ks s x x' v : plain ds -> types_ok ds -> tokens_wf b ks -> start_of ds = Some s ->
  means ds sm eq s (reading b sm ks) x x' v ->
  exists n, forall n', n <= n' ->
    (exists pp, api_run n' t sm x ks = ROk (root_value ds sm s v, x') pp /\ Forall peaceful (ps_log pp)) \/ overflowed t (user_hooks t sm) (api_run n' t sm x ks).
Proof.
  intros [PL1 PL2] TO Hk Hs HM. destruct (means_start sm ks s x x' v TO Hk Hs HM) as (tr & m & HD & Hy & He & Hv & Ha). destruct ex_decl as (opts & DE).
  pose proof (pipe_unlimited _ _ _ _ _ ex_pipe) as PU.
  pose proof (run_complete _ _ _ _ _ PU (user_hooks t sm) (clean_lookup _ _ _ _ _ PU (decls_clean _ _ _ DE PL1) (decls_wild _ _ _ DE PL2)) tr x HD) as HC.
  rewrite He, Ha in HC. destruct HC as (n & pp & HR & HL); [destruct tr; cbn; auto; now left|].
  exists n. intros n' Hn. rewrite Hy in HR. pose proof (run_mono (unlimited t) (user_hooks t sm) n n' x (map (token_value t sm) ks) Hn) as HN. rewrite HR in HN. specialize (HN ltac:(discriminate)).
  destruct (run_alike t (user_hooks t sm) n' x (map (token_value t sm) ks)) as [Hq|Hq]; [left|right; exact Hq]. exists pp. unfold api_run. split; [congruence|]. rewrite HL. constructor; [exact I|].
  apply Forall_rev. eapply Forall_impl; [|apply events_calm]. exact peaceful_calm.
Qed.

(** C05 *)
Theorem prefix_accepted {V X E} (sm : sem V X E) ks1 ks2 s x x' v : plain ds -> types_ok ds -> tokens_wf b (ks1 ++ ks2) -> start_of ds = Some s ->
  means ds sm eq s (reading b sm (ks1 ++ ks2)) x x' v ->
  exists n, forall n', n <= n' ->
    let r := parse_all n' t (user_hooks t sm) (new_parser (user_hooks t sm) x) (map (token_value t sm) ks1) in
    (exists pp, r = ROk tt pp /\ Forall peaceful (ps_log pp)) \/ overflowed t (user_hooks t sm) r.
Proof.
  intros [PL1 PL2] TO Hk Hs HM. destruct (means_start sm _ s x x' v TO Hk Hs HM) as (tr & m & HD & Hy & He & Hv & Ha). destruct ex_decl as (opts & DE).
  pose proof (pipe_unlimited _ _ _ _ _ ex_pipe) as PU. rewrite map_app in Hy.
  destruct (prefix_peaceful _ _ _ _ _ PU (user_hooks t sm) tr x _ _ (decls_clean _ _ _ DE PL1) (decls_wild _ _ _ DE PL2) HD ltac:(destruct tr; cbn; auto; now left) Hy) as (n & Hn).
  { rewrite He. discriminate. } { intros x1 v1 E1. rewrite He in E1. injection E1 as <- <-. rewrite Ha. discriminate. }
  exists n. intros n' Ln. pose proof (parse_all_mono (unlimited t) (user_hooks t sm) n n') as HN.
  destruct (parse_all n (unlimited t) (user_hooks t sm) (new_parser (user_hooks t sm) x) (map (token_value t sm) ks1)) as [[] pp|e pp| |] eqn:Ep; try contradiction.
  - specialize (HN (map (token_value t sm) ks1) Ln (new_parser (user_hooks t sm) x)). rewrite Ep in HN. specialize (HN ltac:(discriminate)).
    destruct (parse_all_alike t (user_hooks t sm) n' (map (token_value t sm) ks1) (new_parser (user_hooks t sm) x)) as [Hq|Hq]; [left|right; exact Hq]. exists pp. split; [congruence|auto].
  - destruct Hn as (_ & x1 & E1). rewrite He in E1. discriminate.
Qed.

(** C03, on values *)
Theorem value_unique {V X E} (sm : sem V X E) ks s x x1 x2 v1 v2 : plain ds -> types_ok ds -> tokens_wf b ks -> start_of ds = Some s ->
  means ds sm eq s (reading b sm ks) x x1 v1 -> means ds sm eq s (reading b sm ks) x x2 v2 -> x1 = x2 /\ v1 = v2.
Proof.
  intros PL TO Hk Hs H1 H2. destruct (means_start sm ks s x x1 v1 TO Hk Hs H1) as (tr & m & HD & Hy & He & Hv & _). destruct (means_start sm ks s x x2 v2 TO Hk Hs H2) as (tr' & m' & HD' & Hy' & He' & Hv' & _).
  assert (tr = tr') by (eapply unambiguous; eauto using ex_wf, ex_aut, ex_single; congruence). subst tr'. rewrite He in He'. injection He' as <- <-. split; congruence.
Qed.

(** ** What the elements of the rules can produce *)
Definition all_say (ds : list decl) : Prop := forall d ns o al n, In d (rules_in ds) -> In (ns, o, al) (d_rhs d) -> In n ns -> exists w, says ds eq n w.

Lemma eq_real opts : declared ds g opts ->
  (forall n w, says ds eq n w -> forall Y, at_name g Y n -> exists ts : list (nat * unit), map (fun q => gname g (fst q)) ts = w /\ toks_ok g ts) /\
  (forall e w, elem ds eq e w -> forall Y, elem_sym g opts e Y -> exists ts : list (nat * unit), map (fun q => gname g (fst q)) ts = w /\ toks_ok g ts) /\
  (forall es w, elems ds eq es w -> forall Ys, Forall2 (elem_sym g opts) es Ys -> exists ts : list (nat * unit), map (fun q => gname g (fst q)) ts = w /\ toks_ok g ts).
Proof.
  intros DE. pose proof (pp_flat _ _ _ _ _ ex_pipe) as FL. pose proof ex_wf as W.
  assert (HT : forall i, is_term g i -> i <> 0 -> exists ts : list (nat * unit), map (fun q => gname g (fst q)) ts = [gname g i] /\ toks_ok g ts).
  { intros i Hi Hz. exists [(i, tt)]. split; auto. intros a m [E|[]]. injection E as <- <-. pose proof (kind_at_range _ _ _ Hi) as L. apply (wg_term g W i L) in Hi. lia. }
  assert (HS : forall Y ms m, kind_at g Y = Some (KMulti ms) -> In m ms -> exists ts : list (nat * unit), map (fun q => gname g (fst q)) ts = [gname g m] /\ toks_ok g ts).
  { intros Y ms m HK Hin. apply HT; [eapply FL; eauto|]. now destruct (wg_multi g W _ _ _ HK Hin) as (_ & H & _). }
  apply says_both.
  - intros a c n <- [U Hst] Y HY. destruct (sym_decl _ _ _ DE _ _ HY (upper_nonempty _ U)) as (_ & _ & HM). destruct (class_of ds n) as [l|] eqn:Ec.
    + destruct (sy_kind (gsym g Y)) as [| |ms] eqn:Ek; try discriminate. injection HM as <-. apply in_map_iff in Hst as (m & <- & Hm). apply (HS Y ms m); auto. rewrite (at_kind g _ _ HY). congruence.
    + subst a. rewrite <- (at_gname g _ _ HY). apply HT; [eapply named_term; eauto|]. now apply (upper_kind _ _ _ DE _ _ HY U).
  - intros d w Hd _ IH Y HY. destruct (de_rules _ _ _ DE) as (rs & _ & HF). destruct (forall2_in_l _ _ _ HF _ Hd) as (ru & _ & RM). eapply IH. apply RM.
  - intros n al w _ IH Y [_ HY]. eauto.
  - intros n al Y _. exists []. split; auto. intros ? ? [].
  - intros n al w _ IH Y (_ & Z & _ & HZ). eauto.
  - intros ns o al a c Hl <- Hin Y He. destruct ns as [|n1 [|n2 ns]]; try (simpl in Hl; lia). destruct He as (_ & _ & ms & HK & HF). destruct (forall2_in_r _ _ _ HF _ Hin) as (m & Hm & Am). rewrite <- (at_gname g _ _ Am). eapply HS; eauto.
  - intros Ys _. exists []. split; auto. intros ? ? [].
  - intros e es w1 w2 _ IH1 _ IH2 Ys HF. inversion HF as [|? Y ? Ys' He HF']; subst. destruct (IH1 Y He) as (ts1 & <- & O1), (IH2 Ys' HF') as (ts2 & <- & O2). exists (ts1 ++ ts2). split; [apply map_app|].
    intros a m Hin. apply in_app_iff in Hin as [Hin|Hin]; eauto.
Qed.
Lemma lr1_used : forall gamma r d c, lr1 g gamma r d c -> r_lhs (grule g r) = g_start g \/ exists q qu al, nth_error (g_rules g) q = Some qu /\ In (r_lhs (grule g r), al) (r_rhs qu).
Proof.
  induction 1 as [r ru Hr Hl|gamma r ru d c Y al H IH Hr Hd|gamma r ru d Y al q qu c H Hr Hd Hq El Hf|gamma r ru d Y al q qu c H IH Hr Hd Hq El Hn]; auto.
  - left. now rewrite (grule_nth _ _ _ Hr).
  - right. rewrite (grule_nth _ _ _ Hq), El. exists r, ru, al. split; auto. eapply nth_error_In; eauto.
  - right. rewrite (grule_nth _ _ _ Hq), El. exists r, ru, al. split; auto. eapply nth_error_In; eauto.
Qed.
Lemma rule_used r ru : nth_error (g_rules g) r = Some ru -> r_lhs ru = g_start g \/ exists q qu al, nth_error (g_rules g) q = Some qu /\ In (r_lhs ru, al) (r_rhs qu).
Proof.
  intros Hr. assert (Lr : r < List.length (g_rules g)) by (apply nth_error_Some; congruence). destruct EX as (fuel & ord & Ho & H). destruct (every_rule_used _ _ _ _ Ho H r Lr) as (s & la & Ls & _ & HL).
  apply (lalr_exact _ _ ex_aut) in HL as (gamma & _ & HL); auto. apply lr1_used in HL. now rewrite (grule_nth _ _ _ Hr) in HL.
Qed.
Lemma opt_used opts Y Z : declared ds g opts -> In (Y, Z) opts -> exists d n al, In d (rules_in ds) /\ In ([n], true, al) (d_rhs d) /\ at_name g Y n.
Proof.
  intros DE HY. destruct (de_opts _ _ _ DE _ _ HY) as (_ & k & Hk). destruct (de_rules _ _ _ DE) as (rs & HRs & _).
  assert (Hin : In (mkRule Z [] COptNone None None) (g_rules g)) by (rewrite HRs; apply in_app_iff; right; apply in_flat_map; exists (Y, Z); split; auto; left; reflexivity).
  apply In_nth_error in Hin as [r Hr]. destruct (rule_used r _ Hr) as [E|(q & qu & al & Hq & Hal)]; cbn in *.
  - exfalso. destruct (de_start _ _ _ DE) as (s & _ & As & Low). rewrite <- E in As. apply (opt_not_id k s); auto. rewrite <- (at_gname g _ _ As). now apply at_gname.
  - destruct (rule_cases ds g opts DE q qu Hq) as [(d & Hd & RM)|(Y2 & Z2 & HZ & EZ & HR)].
    + apply (in_map fst) in Hal. destruct (forall2_in_r _ _ _ (rm_rhs _ _ _ _ RM) _ Hal) as ([[ns o] a] & He & HE). cbn in HE. destruct ns as [|n [|n2 ns]]; [destruct HE| |].
      * destruct HE as [Hn HE]. destruct o; [|exfalso; apply (opt_not_id k n Hn); rewrite <- (at_gname g _ _ HE); now apply at_gname].
        destruct HE as (Y' & HY' & An). assert (Y' = Y) by (eapply opt_uniq; eauto). subst Y'. exists d, n, a. auto.
      * exfalso. destruct HE as (_ & HE & _). apply at_gname in HE, Hk. rewrite HE in Hk. discriminate.
    + exfalso. apply (in_map fst) in Hal. cbn in Hal. destruct HR as [HR|HR]; rewrite HR in Hal; [destruct Hal|destruct Hal as [Hal|[]]]. subst Z. destruct (de_opts _ _ _ DE _ _ HZ) as ((n & An & Hn) & _).
      apply (opt_not_id k n Hn). rewrite <- (at_gname g _ _ An). now apply at_gname.
Qed.
Lemma says_derive : all_say ds -> all_derive g.
Proof.
  intros HS r ru Y al Hr HY. destruct ex_decl as (opts & DE). pose proof (linked_direct ds g opts DE ex_wf) as LK.
  assert (HN : forall n w Z, says ds eq n w -> at_name g Z n -> exists tr : tree unit, derives g (direct g) Z tr).
  { intros n w Z Hw HZ. destruct (proj1 (eq_real opts DE) n w Hw Z HZ) as (ts & Hts & Hok). destruct (proj1 (says_tree ds g opts DE ex_wf _ _ LK) n w Hw Z ts HZ Hts Hok) as (tr & Htr & _). eauto. }
  destruct (rule_cases ds g opts DE r ru Hr) as [(d & Hd & RM)|(Z & Z' & HZ & EZ & HR)].
  - apply (in_map fst) in HY. destruct (forall2_in_r _ _ _ (rm_rhs _ _ _ _ RM) _ HY) as ([[ns o] a] & He & HE). cbn in HE. destruct ns as [|n [|n2 ns]]; [destruct HE| |].
    + destruct HE as [Hn HE]. destruct (HS d [n] o a n Hd He (or_introl eq_refl)) as (w & Hw). destruct o; [|eauto]. destruct HE as (Z & HZ & An).
      assert (HE : elem_sym g opts ([n], true, a) Y) by (split; auto; exists Z; auto). assert (HW : elem ds eq ([n], true, a) []) by constructor.
      destruct (proj1 (proj2 (eq_real opts DE)) _ _ HW Y HE) as (ts & Hts & Hok). destruct (proj1 (proj2 (says_tree ds g opts DE ex_wf _ _ LK)) _ _ HW Y ts HE Hts Hok) as (tr & Htr & _). eauto.
    + assert (HW : elem ds eq (n :: n2 :: ns, o, a) [n]) by (econstructor; [simpl; lia|reflexivity|now left]).
      assert (HE' : elem_sym g opts (n :: n2 :: ns, o, a) Y) by exact HE.
      destruct (proj1 (proj2 (eq_real opts DE)) _ _ HW Y HE') as (ts & Hts & Hok). destruct (proj1 (proj2 (says_tree ds g opts DE ex_wf _ _ LK)) _ _ HW Y ts HE' Hts Hok) as (tr & Htr & _). eauto.
  - assert (Y = Z).
    { destruct HR as [HR|HR]; apply (in_map fst) in HY; rewrite HR in HY; [destruct HY|destruct HY as [HY|[]]; auto]. }
    subst Y. destruct (opt_used opts Z Z' DE HZ) as (d & n & a & Hd & He & An). destruct (HS d [n] true a n Hd He (or_introl eq_refl)) as (w & Hw). eauto.
Qed.

Lemma derives_values {M} (m0 : M) (mt mt' : nat -> nat -> Prop) : (forall a Y, mt a Y -> mt' a Y) ->
  (forall Y (tu : tree unit), derives g mt Y tu -> exists tr : tree M, derives g mt' Y tr /\ map fst (yield tr) = map fst (yield tu)) /\
  (forall Ys (tus : list (tree unit)), derives_all g mt Ys tus -> exists trs : list (tree M), derives_all g mt' Ys trs /\ map fst (flat_map yield trs) = map fst (flat_map yield tus)).
Proof.
  intros HM. apply derives_both.
  - intros a m Y H. exists (TTok a m0). split; auto. constructor. auto.
  - intros r ru ts Hr _ (trs & IH & Ey). exists (TNode r trs). split; auto. econstructor; eauto.
  - exists []. split; auto. constructor.
  - intros Y tu Ys tus _ (tr & H1 & E1) _ (trs & H2 & E2). exists (tr :: trs). split; [now constructor|]. cbn. now rewrite !map_app, E1, E2.
Qed.
Lemma derives_mono {M} (mt mt' : nat -> nat -> Prop) : (forall a Y, mt a Y -> mt' a Y) ->
  (forall Y (tr : tree M), derives g mt Y tr -> derives g mt' Y tr) /\ (forall Ys (trs : list (tree M)), derives_all g mt Ys trs -> derives_all g mt' Ys trs).
Proof. intros HM. apply derives_both; intros; econstructor; eauto. Qed.
Lemma direct_tokens {M} : (forall Y (tr : tree M), derives g (direct g) Y tr -> Y <> 0 -> toks_ok g (yield tr)) /\
  (forall Ys (trs : list (tree M)), derives_all g (direct g) Ys trs -> ~ In 0 Ys -> toks_ok g (flat_map yield trs)).
Proof.
  pose proof ex_wf as W. apply derives_both.
  - intros a m Y [Ha HM] Hz c k [E|[]]. injection E as <- <-. pose proof (kind_at_range _ _ _ Ha) as L. apply (wg_term g W a L) in Ha. destruct HM as [[-> _]|(ms & Hk & Hin)]; [lia|]. destruct (wg_multi g W _ _ _ Hk Hin) as (_ & H & _). lia.
  - intros r ru ts Hr _ IH Hz. apply IH. intros Hin. apply in_map_iff in Hin as ([Y al] & E & Hin). cbn in E. subst Y. destruct (wg_rule g W _ _ Hr) as (_ & _ & HX). destruct (HX _ _ Hin) as (_ & H & _). contradiction.
  - intros _ ? ? [].
  - intros Y tu Ys tus _ IH1 _ IH2 Hz. cbn. intros a m Hin. apply in_app_iff in Hin as [Hin|Hin]; [eapply IH1|eapply IH2]; eauto; intros H; apply Hz; simpl; auto.
Qed.

(** C04 *)
Theorem prefix_valid {V X E} (sm : sem V X E) n x ks pp : all_say ds -> tokens_wf b ks ->
  parse_all n t (user_hooks t sm) (new_parser (user_hooks t sm) x) (map (token_value t sm) ks) = ROk tt pp -> ~ dropped pp ->
  exists s w, start_of ds = Some s /\ says ds (taken ds) s (names b ks ++ w).
Proof.
  intros HS Hk H Hd. destruct (reading_eq sm ks Hk) as (_ & EN & Hok). destruct ex_decl as (opts & DE).
  destruct (parse_all_good _ _ _ _ _ ex_pipe (user_hooks t sm) n _ x [] (new_parser (user_hooks t sm) x) pp Hok eq_refl (new_good _ _ _ _ _ ex_pipe _ x) H Hd) as [_ HG].
  destruct (good_prefix _ _ _ _ _ ex_pipe (user_hooks t sm) x (map (token_value t sm) ks) pp) with (2 := ex_start) (3 := HG) as (tr & w' & Hsen & Hw').
  - intros r ru Y al Hr HY. destruct (says_derive HS r ru Y al Hr HY) as (tu & Htu). destruct (proj1 (derives_values (0, v_unit sm) _ _ (fun _ _ H => H)) _ _ Htu) as (tr & Htr & _). exists tr. split.
    + eapply (proj1 (derives_mono _ _ direct_match)); eauto.
    + apply (proj1 direct_tokens _ _ Htr). destruct (wg_rule g ex_wf _ _ Hr) as (_ & _ & HX). now destruct (HX _ _ HY).
  - destruct (proj1 (sentence_says ds g opts DE ex_wf _ (tokens_ok_app g _ _ Hok Hw'))) as (s & Hs & HSay); [eauto|]. exists s, (map (fun q => gname g (fst q)) w'). split; auto. rewrite <- EN. cbn in HSay. now rewrite map_app in HSay.
Qed.

(** ** No panic, no wrong end *)
Lemma code_any {V X E} (sm : sem V X E) : code_ok g t sm (fun _ _ => true).
Proof. constructor; intros; unfold vfits; now destruct (dtype g _). Qed.
Lemma ex_hooks {V X E} (sm : sem V X E) : types_ok ds -> hooks_ok g t (user_hooks t sm) (stacked g t (fun _ _ => true)) (tokval g t (fun _ _ => true)).
Proof. intros TO. eapply user_ok; eauto using ex_pipe, ex_sane, ex_auto, code_any. Qed.
Lemma input_wf {V X E} (sm : sem V X E) ks : tokens_wf b ks -> input_ok g (tokval g t (fun _ _ => true)) (map (token_value t sm) ks).
Proof. intros Hk a m Hin. now apply (tokval_all sm ks Hk). Qed.

(** C07 *)
Theorem never_panics {V X E} (sm : sem V X E) n x ks : types_ok ds -> tokens_wf b ks ->
  parse_all n t (user_hooks t sm) (new_parser (user_hooks t sm) x) (map (token_value t sm) ks) <> RPanic /\ api_run n t sm x ks <> RPanic.
Proof.
  intros TO Hk. split.
  - pose proof (parse_all_safe _ _ _ _ _ ex_pipe _ _ _ (ex_hooks sm TO) n _ _ (new_safe _ _ _ _ _ ex_pipe (user_hooks t sm) _ x) (input_wf sm ks Hk)) as H.
    destruct (parse_all n t _ _ _); try discriminate. intros _. exact H.
  - eapply run_safe; eauto using ex_pipe, ex_hooks, input_wf.
Qed.

(** C23: [parse] never accepts; [end_of_input] returns Ok only by accepting, with an empty stack, after
    the block of a rule for the start symbol; otherwise it is an error of user code other than %syntax_error. *)
Definition accepting (ds : list decl) {V X} (pp : parser (minor V) X V) : Prop :=
  exists r d l, ps_stack pp = [] /\ ps_log pp = EvAccept :: EvReduce r :: l /\ nth_error (rules_in ds) r = Some d /\ start_of ds = Some (d_lhs d).
Lemma accepted_decl {V X} (pp : parser (minor V) X V) : accepted g pp -> accepting ds pp.
Proof.
  intros (root & r & l & _ & Hs & Hl & Hst). destruct ex_decl as (opts & DE). destruct (de_start _ _ _ DE) as (s & Es & As & Low).
  destruct (wg_start g ex_wf) as [Kst _]. pose proof (proj1 (wg_nonterm g ex_wf _) Kst) as Rst. pose proof (wg_nterm_pos g ex_wf) as Np.
  destruct (nth_error (g_rules g) r) as [ru|] eqn:Er.
  2: { apply nth_error_None in Er. unfold grule in Hst. rewrite nth_overflow in Hst by auto. cbn in Hst. lia. }
  assert (Hru : grule g r = ru) by (unfold grule; now apply nth_error_nth). rewrite Hru in Hst.
  destruct (de_rules _ _ _ DE) as (rs & Eg & F). destruct (Nat.lt_ge_cases r (List.length rs)) as [Lr|Lr].
  - rewrite Eg, nth_error_app1 in Er by auto. destruct (forall2_nth _ _ _ F _ _ Er) as (d & Hd & Hm). exists r, d, l. splits; auto.
    rewrite Es. f_equal. pose proof (rm_lhs _ _ _ _ Hm) as Hl1. rewrite Hst in Hl1. destruct As as (s1 & A1 & A2), Hl1 as (s2 & B1 & B2). congruence.
  - exfalso. rewrite Eg, nth_error_app2 in Er by auto. apply nth_error_In, in_flat_map in Er as ([Y Z] & Hin & Hop).
    assert (El : r_lhs ru = Z) by (destruct Hop as [<-|[<-|[]]]; reflexivity). destruct (de_opts _ _ _ DE _ _ Hin) as (_ & k & (s1 & A1 & A2)).
    destruct As as (s2 & B1 & B2). rewrite <- El, Hst in A1. assert (s = optional_name k) by congruence. subst s. revert Low. rewrite H. now cbn.
Qed.
End Build.
