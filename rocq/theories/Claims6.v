(** Optional symbols (C26), numbering (C28), iteration order (C31), classes (C33), rule
    precedences (C34) and compression (C35). *)
From Verif Require Import Base Syntax BaseFacts FrontEnd First States Actions Tables Runtime User Spec WfGrammar FirstFacts ClosureFacts AutoFacts LalrFacts ActFacts GroupFacts CompFacts TabFacts PackFacts LookFacts PipeFacts RunFacts FrontFacts
  SoundFacts SafeFacts BuildFacts AbsFacts HaltFacts TermFacts CompleteFacts CleanFacts RefFacts DeclSpec DeclFacts GramFacts LangFacts TypeFacts MeanSpec MeanFacts TypeDecl RunMore Main Claims Claims2 DeclMore Claims3 Claims4 Names Claims5.
Open Scope string_scope. Open Scope nat_scope. Open Scope list_scope.

Section Any.
Context (ds : list decl) (b : built).
Notation g := (bt_grammar b). Notation t := (bt_tables b).
Hypothesis EX : expands ds b.
Notation W := (ex_wf ds b EX).

(** ** C28 *)
Lemma ex_names n : upper n \/ lower n -> (exists i, at_name g i n) <-> n = "error" \/ mentions ds n.
Proof. destruct EX as (fuel & ord & Ho & HB). intros H. eapply build_names; eauto. Qed.
Theorem symbols_numbered :
  (forall i j n, at_name g i n -> at_name g j n -> n <> "" -> i = j) /\
  at_name g 0 "$" /\
  (forall n, upper n -> class_of ds n = None -> ((exists i, 0 < i < g_nterm g /\ at_name g i n) <-> mentions ds n)) /\
  (forall n, lower n -> ((exists i, g_nterm g <= i < g_dflt g /\ at_name g i n) <-> n = "error" \/ mentions ds n)) /\
  at_name g (g_dflt g) "{default}" /\
  (forall i, g_dflt g < i < List.length (g_syms g) <-> exists ms, kind_at g i = Some (KMulti ms)).
Proof.
  destruct (ex_decl ds b EX) as (opts & DE).
  assert (HD : at_name g (g_dflt g) "{default}").
  { destruct EX as (fuel & ord & Ho & HB) eqn:EE. destruct (build_default _ _ _ _ HB) as (i & s & Hi & En).
    destruct (de_named _ _ _ DE i s Hi) as [(_ & E & _)|[(U & _)|[(L & _)|[((k & E) & _)|(E & _ & _)]]]]; rewrite ?En in *; try discriminate. exists s. split; congruence. }
  splits; auto.
  - apply (de_uniq _ _ _ DE).
  - apply DE.
  - intros n U Hc. split.
    + intros (i & _ & Hi). destruct (proj1 (ex_names n (or_introl U)) (ex_intro _ i Hi)) as [->|H]; auto. discriminate.
    + intros H. destruct (proj2 (ex_names n (or_introl U)) (or_intror H)) as (i & Hi). exists i. split; auto. destruct (upper_kind ds g opts DE i n Hi U) as [Hz _].
      pose proof (named_term ds g opts DE i n Hi U Hc) as Ht. unfold is_term in Ht. apply (wg_term g W) in Ht; [lia|]. eapply kind_at_range; eauto.
  - intros n L. rewrite <- (ex_names n (or_intror L)). split; [intros (i & _ & Hi); eauto|]. intros (i & Hi). exists i. split; auto.
    pose proof (lower_kind ds g opts DE i n Hi L) as K. apply (wg_nonterm g W) in K. assert (i <> g_dflt g); [|lia]. intros ->. apply at_gname in HD, Hi. rewrite HD in Hi. subst n. discriminate.
  - intros i. split.
    + intros [L1 L2]. destruct (sy_kind (gsym g i)) as [| |ms] eqn:Ek.
      * pose proof (gsym_kind_at g i L2) as K. rewrite Ek in K. apply (wg_term g W) in K; auto. pose proof (wg_dflt_range g W). lia.
      * pose proof (gsym_kind_at g i L2) as K. rewrite Ek in K. apply (wg_nonterm g W) in K. lia.
      * exists ms. rewrite gsym_kind_at; auto. now rewrite Ek.
    + intros (ms & K). pose proof (kind_at_range _ _ _ K) as L. split; auto. destruct (Nat.lt_ge_cases i (g_nterm g)) as [L1|L1].
      * apply (wg_term g W i L) in L1. congruence.
      * destruct (Nat.lt_ge_cases (g_dflt g) i) as [|L2]; auto. assert (K2 : kind_at g i = Some KNonTerm) by (apply (wg_nonterm g W); lia). congruence.
Qed.
Theorem tokens_numbered : usable ds b ->
  List.length (t_names t) = t_nterm t /\ tok_name b 0 = "$" /\
  (forall i j, i < t_nterm t -> j < t_nterm t -> tok_name b i = tok_name b j -> i = j) /\
  (forall n, (exists i, 0 < i < t_nterm t /\ tok_name b i = n) <-> upper n /\ class_of ds n = None /\ mentions ds n).
Proof.
  intros US. destruct (ex_decl ds b EX) as (opts & DE). destruct symbols_numbered as (HU & HZ & HT & _). rewrite (nterm_eq ds b EX US).
  pose proof (wg_nterm_pos g W) as Np. pose proof (wg_dflt_range g W) as Nd.
  assert (HG : forall i, i < g_nterm g -> at_name g i (tok_name b i)) by (intros i Li; rewrite (name_eq ds b EX US) by auto; apply gname_at; lia).
  assert (HP : forall i, 0 < i < g_nterm g -> upper (tok_name b i) /\ class_of ds (tok_name b i) = None) by (intros i Li; rewrite (name_eq ds b EX US) by lia; now destruct (term_name ds g opts DE W i Li) as (_ & ? & ?)).
  assert (H0 : tok_name b 0 = "$") by (rewrite (name_eq ds b EX US) by auto; now apply at_gname).
  splits; auto.
  - destruct (pp_gen _ _ _ _ _ (ex_pipe ds b EX US)) as (k & m & sy & dt & G & _). rewrite (gn_names _ _ _ _ _ _ _ G), map_length, firstn_length.
    destruct (gen_types g _ _ _ _ (ex_pipe ds b EX US)) as (m' & sy' & HT' & I & _). pose proof (gn_types _ _ _ _ _ _ _ G) as HT''. rewrite <- (gn_dts _ _ _ _ _ _ _ G) in HT''. assert (sy' = sy) by congruence. subst sy'.
    rewrite (ti_len _ _ _ _ _ I). lia.
  - intros i j Li Lj E. apply (HU i j (tok_name b i)); auto; [rewrite E; auto|]. destruct (Nat.eq_dec i 0) as [->|]; [rewrite H0; discriminate|]. apply upper_nonempty, HP. lia.
  - intros n. split.
    + intros (i & Li & <-). destruct (HP i Li) as [U C]. splits; auto. apply HT; auto. exists i. split; auto. apply HG. lia.
    + intros (U & C & Hm). apply HT in Hm as (i & Li & Hi); auto. exists i. split; auto. rewrite (name_eq ds b EX US) by lia. now apply at_gname.
Qed.

(** ** C26 *)
Theorem optional_exact : exists opts rs,
  g_rules g = rs ++ flat_map (opt_made g) opts /\ Forall2 (rule_made g opts) (rules_in ds) rs /\ NoDup (map fst opts) /\ NoDup (map snd opts) /\
  forall Y O, In (Y, O) opts ->
    (exists d n al, In d (rules_in ds) /\ In ([n], true, al) (d_rhs d) /\ at_name g Y n) /\
    forall M (tr : tree M), derives g (tok_match g) O tr <->
      (exists r, tr = TNode r [] /\ nth_error (g_rules g) r = Some (mkRule O [] COptNone None None)) \/
      (exists r u, tr = TNode r [u] /\ nth_error (g_rules g) r = Some (mkRule O [(Y, true)] COptSome None (rhs_sym_prec g Y)) /\ derives g (tok_match g) Y u).
Proof.
  destruct (ex_decl ds b EX) as (opts & DE). destruct (de_rules _ _ _ DE) as (rs & HR & HF). exists opts, rs. splits; auto; [apply DE|apply DE|].
  intros Y O HY. split; [eapply opt_used; eauto|]. destruct (de_opts _ _ _ DE _ _ HY) as (_ & k & Hk). pose proof (opt_nonterm ds g opts DE k O Hk) as KO. intros M tr. split.
  - intros HD. inversion HD as [a m Y' HM|r ru ts Hr HA E1]; subst.
    + exfalso. destruct HM as [(c & _ & Hb)|(w & _ & Hb)]; eapply (member_not_nonterm g _ O Hb); eauto.
    + destruct (opt_rule ds g opts DE r ru Hr) as [(d & Hd & RM)|(Y2 & Z & HZ & HI)].
      * exfalso. pose proof (rm_lhs _ _ _ _ RM) as HL. apply (opt_not_id k (d_lhs d)); [right; apply RM|]. apply at_gname in HL, Hk. congruence.
      * assert (EZ : r_lhs ru = Z) by (destruct HI as [<-|[<-|[]]]; reflexivity). rewrite EZ in *. assert (Y2 = Y) by (eapply opt_uniq; eauto). subst Y2.
        destruct HI as [<-|[<-|[]]]; cbn in HA.
        { left. inversion HA; subst. exists r. auto. }
        { right. inversion HA as [|? u ? us Hu HA']; subst. inversion HA'; subst. exists r, u. auto. }
  - intros [(r & -> & Hr)|(r & u & -> & Hr & Hu)].
    + apply (d_node g (tok_match g) r (mkRule O [] COptNone None None)); auto. constructor.
    + apply (d_node g (tok_match g) r (mkRule O [(Y, true)] COptSome None (rhs_sym_prec g Y))); auto. repeat constructor. exact Hu.
Qed.

(** ** C34 *)
Theorem rule_precedence_decl k d : nth_error (rules_in ds) k = Some d ->
  exists ru, nth_error (g_rules g) k = Some ru /\ at_name g (r_lhs ru) (d_lhs d) /\ r_prec ru = prec_of ds d.
Proof.
  intros Hd. destruct (ex_decl ds b EX) as (opts & DE). destruct (rule_prec_decl ds g opts DE W (ex_assoc ds b EX) k d Hd) as (ru & Hr & RM & E). exists ru. splits; auto. apply RM.
Qed.
Lemma assoc_app l1 l2 n k : assoc_from k (l1 ++ l2) n = match assoc_from k l1 n with Some p => Some p | None => assoc_from (k + assoc_lines l1) l2 n end.
Proof.
  revert k. induction l1 as [|d l1 IH]; intros k; cbn; [now rewrite Nat.add_0_r|]. destruct d; auto. destruct (listed n ids); auto. rewrite IH. now replace (S k + assoc_lines l1) with (k + S (assoc_lines l1)) by lia.
Qed.
Theorem later_binds_tighter l1 l2 l3 a1 a2 ids1 ids2 n1 n2 : ds = l1 ++ DAssoc a1 ids1 :: l2 ++ DAssoc a2 ids2 :: l3 -> In n1 ids1 -> In n2 ids2 ->
  exists k1 k2, assoc_of ds n1 = Some (k1, a1) /\ assoc_of ds n2 = Some (k2, a2) /\ k1 < k2.
Proof.
  intros E H1 H2. destruct (nothing_twice ds b EX) as (_ & _ & HA & _). destruct (HA _ _ _ _ E) as [_ N1].
  assert (E' : ds = (l1 ++ DAssoc a1 ids1 :: l2) ++ DAssoc a2 ids2 :: l3) by (rewrite E, <- app_assoc; reflexivity). destruct (HA _ _ _ _ E') as [_ N2].
  assert (LI : forall n l, In n l -> listed n l = true) by (intros n l Hin; apply existsb_exists; exists n; split; auto; apply String.eqb_refl). pose proof (LI _ _ H1) as L1. pose proof (LI _ _ H2) as L2. specialize (N1 n1 H1). specialize (N2 n2 H2). unfold assoc_of in *.
  exists (S (assoc_lines l1)), (S (assoc_lines (l1 ++ DAssoc a1 ids1 :: l2))). splits.
  - rewrite E, assoc_app, N1. cbn. now rewrite L1.
  - rewrite E', assoc_app, N2. cbn. now rewrite L2.
  - assert (HL : forall l m, assoc_lines (l ++ m) = assoc_lines l + assoc_lines m) by (induction l as [|d l IH]; intros m; cbn; auto; destruct d; auto; now rewrite IH). rewrite HL. cbn. lia.
Qed.

(** ** C35 *)
Theorem compression_kept {V X E} (sm : sem V X E) x ks r x' : usable ds b -> wildcard_of ds = None ->
  (forall a l, assoc_of ds a = Some (l, ANone) -> fallback_of ds a = None) -> tokens_wf b ks ->
  let rp := rparse g (bt_acts b) (user_hooks t sm) [(0, h_unit (user_hooks t sm))] x (map (token_value t sm) ks) x' r in
  (forall n pp, api_run n t sm x ks = ROk (r, x') pp -> ~ dropped pp -> rp) /\
  (rp -> exists n, forall n', n <= n' -> (exists pp, api_run n' t sm x ks = ROk (r, x') pp /\ ~ dropped pp) \/ overflowed t (user_hooks t sm) (api_run n' t sm x ks)).
Proof.
  intros US HW HT Hk rp. destruct (ex_decl ds b EX) as (opts & DE). destruct (reading_eq ds b EX US sm ks Hk) as (_ & _ & Hok).
  pose proof (pipe_unlimited _ _ _ _ _ (ex_pipe ds b EX US)) as PU. pose proof (decls_wild _ _ _ DE HW) as HW'.
  assert (TK : ties_kept g).
  { intros a l Ha. destruct (sy_fb (gsym g a)) as [f|] eqn:Ef; auto. exfalso. destruct (nth_error (g_syms g) a) as [s|] eqn:Es; [|unfold gsym in Ef; rewrite nth_overflow in Ef by (now apply nth_error_None); discriminate].
    unfold gsym in Ef, Ha. rewrite (nth_error_nth _ _ _ Es) in Ef, Ha. destruct (string_dec (sy_name s) "") as [En|En]; [destruct (de_anon _ _ _ DE _ _ Es En) as (_ & F & _); congruence|].
    destruct (de_sym _ _ _ DE _ _ Es En) as (E1 & E2 & _). rewrite Ha in E1. rewrite Ef in E2. cbn in E2. rewrite (HT _ _ (eq_sym E1)) in E2. discriminate. }
  pose proof (tables_agree g _ _ _ (unlimited t) PU (user_hooks t sm) HW' TK x _ r x' Hok eq_refl) as TA. split.
  - intros n pp H Hd. apply TA. exists n, pp. split; auto. destruct (run_alike t (user_hooks t sm) n x (map (token_value t sm) ks)) as [Hq|Hq]; [unfold api_run in H; congruence|].
    unfold api_run in H. rewrite H in Hq. destruct Hq as (? & ? & ? & ? & ? & ? & Hq & _). discriminate.
  - intros H. apply TA in H as (n & pp & HR & Hd). exists n. intros n' Hn. pose proof (run_mono (unlimited t) (user_hooks t sm) n n' x (map (token_value t sm) ks) Hn) as HN. rewrite HR in HN. specialize (HN ltac:(discriminate)).
    destruct (run_alike t (user_hooks t sm) n' x (map (token_value t sm) ks)) as [Hq|Hq]; [left|right; exact Hq]. exists pp. unfold api_run. split; auto. congruence.
Qed.
End Any.

(** ** Two parsers for declarations with the same meaning *)
Definition no_fallback (ds : list decl) : Prop := forall a, fallback_of ds a = None.
(** The parser returns [r] (and the extra value [x']) for the tokens [ks]. *)
Definition answers {V X E} (b : built) (sm : sem V X E) (x : X) (ks : list (token V)) (r : V) (x' : X) : Prop :=
  exists n pp, api_run n (bt_tables b) sm x ks = ROk (r, x') pp /\ ~ dropped pp.
(** The same, or the stack limit was hit *)
Definition answers_or_overflows {V X E} (b : built) (sm : sem V X E) (x : X) (ks : list (token V)) (r : V) (x' : X) : Prop :=
  exists n, forall n', n <= n' -> (exists pp, api_run n' (bt_tables b) sm x ks = ROk (r, x') pp /\ ~ dropped pp) \/
    overflowed (bt_tables b) (user_hooks (bt_tables b) sm) (api_run n' (bt_tables b) sm x ks).

Lemma falls_none ds a c : no_fallback ds -> falls ds a c -> a = c.
Proof. intros NF. induction 1 as [|c d H IH Hf]; auto. rewrite NF in Hf. discriminate. Qed.
Lemma means_tk ds {V X E} (sm : sem V X E) (tk tk' : ident -> ident -> Prop) : (forall a c, tk a c -> tk' a c) ->
  forall n w x x' v, means ds sm tk n w x x' v -> means ds sm tk' n w x x' v.
Proof.
  intros HT. apply (means_mind ds V X E sm tk (means ds sm tk') (means_elem ds sm tk') (means_all ds sm tk')); intros; try (econstructor; eauto; fail).
Qed.
Lemma peaceful_kept {V X} (pp : parser (minor V) X V) : Forall peaceful (ps_log pp) -> ~ dropped pp.
Proof. intros H [a Ha]. rewrite Forall_forall in H. now apply H in Ha. Qed.

Theorem same_meaning ds1 ds2 b1 b2 {V X E} (sm : sem V X E) : expands ds1 b1 -> usable ds1 b1 -> expands ds2 b2 -> usable ds2 b2 ->
  plain ds1 -> no_fallback ds1 -> plain ds2 -> types_ok ds2 -> start_of ds1 = start_of ds2 -> (forall s, start_of ds1 = Some s -> name_type ds1 s = name_type ds2 s) ->
  (forall s w x x' v, start_of ds1 = Some s -> means ds1 sm eq s w x x' v -> means ds2 sm eq s w x x' v) ->
  forall ks1 ks2, tokens_wf b1 ks1 -> tokens_wf b2 ks2 -> reading b1 sm ks1 = reading b2 sm ks2 ->
  forall x r x', answers b1 sm x ks1 r x' -> answers_or_overflows b2 sm x ks2 r x'.
Proof.
  intros E1 U1 E2 U2 P1 NF P2 TO HS HN HM ks1 ks2 K1 K2 HR x r x' (n & pp & Hrun & Hd).
  destruct (accepted_means ds1 b1 E1 U1 sm n x ks1 r x' pp K1 Hrun Hd) as (s & v & Es & Hm & ->).
  assert (Hm' : means ds2 sm eq s (reading b2 sm ks2) x x' v).
  { rewrite <- HR. apply HM; auto. eapply means_tk; [|exact Hm]. intros a c [Hf|Hw]; [eapply falls_none; eauto|]. destruct P1 as [_ P1]. congruence. }
  destruct (sentence_accepted ds2 b2 E2 U2 sm ks2 s x x' v P2 TO K2 ltac:(congruence) Hm') as (m & H). exists m. intros n' Hn. destruct (H n' Hn) as [(pp' & Hr & Hf)|Ho]; auto.
  left. exists pp'. split; [|now apply peaceful_kept]. unfold root_value in *. now rewrite (HN s Es).
Qed.

(** C31: two expansions of the same declarations, with any two orders of the map of optional
    symbols, give parsers that return the same. *)
Theorem order_unseen ds b1 b2 {V X E} (sm : sem V X E) : expands ds b1 -> usable ds b1 -> expands ds b2 -> usable ds b2 -> plain ds -> no_fallback ds -> types_ok ds ->
  forall ks1 ks2, tokens_wf b1 ks1 -> tokens_wf b2 ks2 -> reading b1 sm ks1 = reading b2 sm ks2 ->
  forall x r x', answers b1 sm x ks1 r x' -> answers_or_overflows b2 sm x ks2 r x'.
Proof. intros E1 U1 E2 U2 P NF TO. apply (same_meaning ds ds); auto. Qed.

(** ** C33: writing the members of a class instead of the class *)
Inductive spelled (ds : list decl) : rhs_elem -> rhs_elem -> Prop :=
| sp_same e : spelled ds e e
| sp_class n ms al : is_terminal_ident n = true -> class_of ds n = Some ms -> 2 <= List.length ms -> raw_type ds n = None -> spelled ds ([n], false, al) (ms, false, al).
Inductive spelled_decl (ds : list decl) : decl -> decl -> Prop :=
| sd_same d : spelled_decl ds d d
| sd_rule l r r' c p : Forall2 (spelled ds) r r' -> spelled_decl ds (DRule l r c p) (DRule l r' c p).

Section Spell.
Context (ds1 ds2 : list decl).
Hypothesis SP : Forall2 (spelled_decl ds1) ds1 ds2.

Lemma sp_first {B} (f : decl -> option B) : (forall l r c p, f (DRule l r c p) = None) -> first_of f ds2 = first_of f ds1.
Proof.
  intros Hf. clear -SP Hf. revert SP. generalize ds1 at 1 as D. intros D HF. induction HF as [|d d' l l' Hd HF IH]; cbn; auto. destruct Hd; [now rewrite IH|]. now rewrite !Hf.
Qed.
Lemma sp_assoc n k : assoc_from k ds2 n = assoc_from k ds1 n.
Proof.
  clear -SP. revert SP k. generalize ds1 at 1 as D. intros D HF. induction HF as [|d d' l l' Hd HF IH]; intros k; cbn; auto. destruct Hd; [|now rewrite IH]. destruct d; rewrite ?IH; auto.
Qed.
Lemma sp_class_of n : class_of ds2 n = class_of ds1 n.
Proof.
  clear -SP. revert SP. generalize ds1 at 1 as D. intros D HF. induction HF as [|d d' l l' Hd HF IH]; cbn; auto. destruct Hd; now rewrite IH.
Qed.
Lemma sp_raw n : raw_type ds2 n = raw_type ds1 n.
Proof. unfold raw_type, extra_token_of, type_of. rewrite !sp_first by reflexivity. now rewrite sp_class_of. Qed.
Definition spelled_rule (d d' : drule) : Prop := d_lhs d' = d_lhs d /\ d_code d' = d_code d /\ Forall2 (spelled ds1) (d_rhs d) (d_rhs d').
Lemma spelled_refl l : Forall2 (spelled ds1) l l.
Proof. induction l; constructor; auto. constructor. Qed.
Lemma sp_rules : Forall2 spelled_rule (rules_in ds1) (rules_in ds2).
Proof.
  assert (HG : forall D, D = ds1 -> forall l l', Forall2 (spelled_decl D) l l' -> Forall2 spelled_rule (rules_in l) (rules_in l')).
  { intros D -> l l' HF. induction HF as [|d d' l l' Hd HF IH]; cbn; [constructor|]. destruct Hd; cbn.
    - destruct d; auto. constructor; auto. unfold spelled_rule; cbn; auto using spelled_refl.
    - constructor; auto. unfold spelled_rule; cbn; auto. }
  now apply (HG ds1).
Qed.
Lemma sp_start : start_of ds2 = start_of ds1.
Proof. unfold start_of, start_line. rewrite sp_first by reflexivity. destruct (first_of _ ds1); auto. destruct sp_rules as [|d d' l l' (E & _) _]; cbn; congruence. Qed.
Lemma sp_name_type n : name_type ds2 n = name_type ds1 n.
Proof.
  unfold name_type, own_of, is_wild, wildcard_of, default_type_of. rewrite !sp_first by reflexivity. rewrite sp_class_of, sp_raw. destruct (class_of ds1 n) as [[|c l]|]; auto. now rewrite sp_raw.
Qed.
Lemma sp_result {V X E} (sm : sem V X E) d d' vs x : spelled_rule d d' -> result ds2 sm d' vs x = result ds1 sm d vs x.
Proof.
  intros (E1 & E2 & HF). unfold result. rewrite E1, E2. unfold type_of. rewrite sp_first by reflexivity. fold (type_of ds1 (d_lhs d)).
  assert (EA : map is_aliased (d_rhs d') = map is_aliased (d_rhs d)) by (clear -HF; induction HF as [|e e' l l' He HF IH]; cbn; auto; rewrite IH; f_equal; destruct He; auto).
  assert (ET : map (fun e => opt_is_some (elem_type ds2 e)) (d_rhs d') = map (fun e => opt_is_some (elem_type ds1 e)) (d_rhs d)).
  { clear -HF SP. induction HF as [|e e' l l' He HF IH]; cbn; auto. rewrite IH. f_equal. destruct He as [e|n ms al U C L R].
    - destruct e as [[[|n [|]] o] al]; cbn; auto. rewrite sp_raw. now destruct o.
    - destruct ms as [|m1 [|m2 ms]]; cbn in L; try lia. cbn. now rewrite R. }
  rewrite !chosen_flags, EA, ET. reflexivity.
Qed.

Lemma spelled_forth {V X E} (sm : sem V X E) (LOW : forall d, In d (rules_in ds2) -> lower (d_lhs d)) :
  forall n w x x' v, means ds1 sm eq n w x x' v -> means ds2 sm eq n w x x' v.
Proof.
  apply (means_mind ds1 V X E sm eq (means ds2 sm eq) (fun e w x x' v => forall e', spelled ds1 e e' -> means_elem ds2 sm eq e' w x x' v)
    (fun es w x x' vs => forall es', Forall2 (spelled ds1) es es' -> means_all ds2 sm eq es' w x x' vs)).
  - intros a v c n x <- [U Hst]. apply me_tok with (b := a); auto. split; auto. now rewrite sp_class_of.
  - intros d w vs v x x1 x2 Hd _ IH HR. destruct (forall2_in_l _ _ _ sp_rules _ Hd) as (d' & Hd' & SD). pose proof SD as (E1 & _ & HF). rewrite <- E1. econstructor 2; [exact Hd'|now apply IH|]. now rewrite (sp_result sm d d').
  - intros n al w x x' v _ IH e' He. inversion He as [|? ms ? U C L R]; subst; [now constructor|]. inversion IH as [a v0 c n0 x0 Ht [_ Hst]|d' w0 vs v0 x0 x1 x2 Hd' HA HRes]; subst.
    + rewrite sp_class_of, C in Hst. now apply me_alt with (b := c).
    + exfalso. apply LOW in Hd'. eapply upper_lower; eauto.
  - intros n al x e' He. inversion He; subst. constructor.
  - intros n al w x x' v _ IH e' He. inversion He; subst. now constructor.
  - intros ns o al a v c x L <- Hin e' He. inversion He as [|? ms ? U C L' R]; subst; [now apply me_alt with (b := a)|]. simpl in L. lia.
  - intros x es' HF. inversion HF; subst. constructor.
  - intros e es w1 w2 x x1 x2 v vs _ IH1 _ IH2 es' HF. inversion HF; subst. econstructor; eauto.
Qed.
Lemma spelled_back {V X E} (sm : sem V X E) :
  forall n w x x' v, means ds2 sm eq n w x x' v -> means ds1 sm eq n w x x' v.
Proof.
  apply (means_mind ds2 V X E sm eq (means ds1 sm eq) (fun e' w x x' v => forall e, spelled ds1 e e' -> means_elem ds1 sm eq e w x x' v)
    (fun es' w x x' vs => forall es, Forall2 (spelled ds1) es es' -> means_all ds1 sm eq es w x x' vs)).
  - intros a v c n x <- [U Hst]. apply me_tok with (b := a); auto. split; auto. now rewrite <- sp_class_of.
  - intros d' w vs v x x1 x2 Hd' _ IH HR. destruct (forall2_in_r _ _ _ sp_rules _ Hd') as (d & Hd & SD). pose proof SD as (E1 & _ & HF). rewrite E1. econstructor 2; [exact Hd|now apply IH|]. now rewrite <- (sp_result sm d d').
  - intros n al w x x' v _ IH e He. inversion He as [|m ms ? U C L R]; subst; [now constructor|]. simpl in L. lia.
  - intros n al x e He. inversion He; subst. constructor.
  - intros n al w x x' v _ IH e He. inversion He; subst. now constructor.
  - intros ns o al a v c x L <- Hin e He. inversion He as [|n ms ? U C L' R]; subst; [now apply me_alt with (b := a)|]. constructor. apply me_tok with (b := a); auto. split; auto. now rewrite C.
  - intros x es HF. inversion HF; subst. constructor.
  - intros e es w1 w2 x x1 x2 v vs _ IH1 _ IH2 es' HF. inversion HF; subst. econstructor; eauto.
Qed.

Lemma ex_low ds b : expands ds b -> forall d, In d (rules_in ds) -> lower (d_lhs d).
Proof. intros EX d Hd. destruct (ex_decl ds b EX) as (opts & DE). destruct (de_rules _ _ _ DE) as (rs & _ & HF). destruct (forall2_in_l _ _ _ HF _ Hd) as (ru & _ & RM). apply RM. Qed.

Theorem class_spelled_out b1 b2 {V X E} (sm : sem V X E) : expands ds1 b1 -> usable ds1 b1 -> expands ds2 b2 -> usable ds2 b2 ->
  plain ds1 -> no_fallback ds1 -> types_ok ds1 -> types_ok ds2 ->
  forall ks1 ks2, tokens_wf b1 ks1 -> tokens_wf b2 ks2 -> reading b1 sm ks1 = reading b2 sm ks2 ->
  forall x r x', (answers b1 sm x ks1 r x' -> answers_or_overflows b2 sm x ks2 r x') /\ (answers b2 sm x ks2 r x' -> answers_or_overflows b1 sm x ks1 r x').
Proof.
  intros E1 U1 E2 U2 [P1 P2] NF T1 T2 ks1 ks2 K1 K2 HR x r x'.
  assert (PL : plain ds2) by (split; [intros n; unfold assoc_of; rewrite sp_assoc; apply P1|unfold wildcard_of; now rewrite sp_first by reflexivity]).
  assert (NF2 : no_fallback ds2) by (intros a; unfold fallback_of; rewrite sp_first by reflexivity; apply NF).
  split.
  - apply (same_meaning ds1 ds2 b1 b2); auto; [split; auto|now rewrite sp_start|intros; now rewrite sp_name_type|]. intros s w y y' v _. apply spelled_forth. eapply ex_low; eauto.
  - apply (same_meaning ds2 ds1 b2 b1); auto; [split; auto|now rewrite sp_start|intros; now rewrite sp_name_type|]. intros s w y y' v _. apply spelled_back.
Qed.
End Spell.
