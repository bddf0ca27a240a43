(** More guarantees at the level of declarations, tables and API: %fallback (C16), the stack
    limit (C19), silence after an error (C20), recovery (C21), failure (C22, C29), the tokens
    handlers see (C24, C25). *)
From Verif Require Import Base Syntax BaseFacts FrontEnd First States Actions Tables Runtime User Spec WfGrammar FirstFacts ClosureFacts AutoFacts LalrFacts ActFacts GroupFacts CompFacts TabFacts PackFacts LookFacts PipeFacts RunFacts FrontFacts
  SoundFacts SafeFacts BuildFacts AbsFacts HaltFacts TermFacts CompleteFacts CleanFacts RefFacts DeclSpec DeclFacts GramFacts LangFacts TypeFacts MeanSpec MeanFacts TypeDecl RunMore Main Claims Claims2 DeclMore.
Open Scope string_scope. Open Scope nat_scope. Open Scope list_scope.

(** ** What reaches the tables *)
Lemma limit_shape f order n opts f' : optional_rules (extra_token_type f order n) opts = GOk f' -> f_stack_limit f' = f_stack_limit f.
Proof.
  assert (H1 : f_stack_limit (extra_token_type f order n) = f_stack_limit f).
  { unfold extra_token_type. destruct (f_extra_token f); auto. generalize (seq 1 (n - 1)). intros l. revert f. induction l as [|i l IH]; intros f; cbn [fold_left]; auto. now rewrite IH. }
  rewrite <- H1. generalize (extra_token_type f order n). clear. unfold optional_rules. intros f H. revert f f' H. induction opts as [|[r l] opts IH]; intros f f' H; cbn [gfold] in H.
  - now injection H as <-.
  - apply gbind_ok in H as (f3 & H3 & H). apply gbind_ok in H3 as (f2 & H2 & H3). unfold create_rule in H2, H3.
    destruct (sy_kind (get_sym _ l)); try discriminate. injection H2 as <-. destruct (sy_kind (get_sym _ l)); try discriminate. injection H3 as <-.
    apply IH in H. exact H.
Qed.

Section Any.
Context (ds : list decl) (b : built).
Notation g := (bt_grammar b). Notation t := (bt_tables b).
Hypothesis EX : expands ds b.

Lemma ex_front : exists fuel f0 f ord, gfold (parse_one_decl fuel) ds fe_init = GOk f0 /\ new_from_decls fuel ds = GOk f /\
  f = set_syms f0 (f_syms f0 ++ [mkSym "{default}" KNonTerm None None 1 None 0]) /\ ran fuel ord f b.
Proof.
  destruct EX as (fuel & ord & Ho & H). unfold build in H. apply gbind_ok in H as (f & Hf & H). pose proof Hf as Hf'. unfold new_from_decls in Hf.
  apply gbind_ok in Hf as (f0 & H0 & Hf). exists fuel, f0, f, ord. splits; auto; [|now apply build_fe_inv].
  pose proof (decls_FI _ _ _ H0) as F. unfold symbol_new in Hf. cbn [String.eqb] in Hf. destruct (position _ _) as [j|] eqn:Ep.
  - exfalso. change (if ("{default}" =? "")%string then None else position (fun s : symbol => (sy_name s =? "{default}")%string) (f_syms f0)) with
      (position (fun s : symbol => (sy_name s =? "{default}")%string) (f_syms f0)) in Ep.
    apply position_some in Ep as (s & Hs & Es & _). apply String.eqb_eq in Es. apply nth_error_In in Hs.
    apply (fi_tail f0 F (sy_name s)); auto. unfold FrontFacts.names. now apply in_map.
  - cbn [gbind] in Hf. destruct (f_rules _); [discriminate|]. now injection Hf as <-.
Qed.

Lemma gen_consts p : generate_source g p = GOk t -> t_limit t = f_stack_limit (g_fe g) /\ t_err t = if 1 <? sy_use (gsym g (g_error g)) then g_error g else 0.
Proof.
  intros Ht. unfold generate_source in Ht. repeat (apply gbind_ok in Ht as (? & _ & Ht) || (match type of Ht with context [match ?e with _ => _ end] => destruct e; try discriminate end));
    injection Ht as <-; cbn [t_limit t_err]; auto.
Qed.

(** The generated limit is the declared one. *)
Lemma limit_eq : t_limit t = limit_of ds.
Proof.
  destruct ex_front as (fuel & f0 & f & ord & H0 & _ & Ef & [(g0 & Hp & Hn) _ _ _ _ Ht]). destruct (decls_cnt _ _ _ H0) as [_ HL]. rewrite <- HL.
  destruct (gen_consts _ Ht) as [-> _]. unfold normalize_rules in Hn. apply gbind_ok in Hn as (rs & _ & Hn). injection Hn as <-. cbn [g_fe find_rule_precedences].
  unfold prepare in Hp. apply gbind_ok in Hp as (f2 & H2 & Hp). injection Hp as <-. cbn [g_fe]. rewrite (limit_shape _ _ _ _ _ H2), Ef. reflexivity.
Qed.

(** The error symbol is known to the parser exactly when the declarations mention it. *)
Lemma err_eq : t_err t = 0 <-> ~ mentions ds "error".
Proof.
  destruct ex_front as (fuel & f0 & f & ord & H0 & _ & Ef & [(g0 & Hp & Hn) _ _ _ _ Ht]). destruct (decls_cnt _ _ _ H0) as [HU _].
  destruct (gen_consts _ Ht) as [_ ->]. pose proof (ex_wf ds b EX) as W.
  assert (HE : sy_use (gsym g (g_error g)) = euse f0).
  { unfold normalize_rules in Hn. apply gbind_ok in Hn as (rs & _ & Hn). injection Hn as <-. cbn [g_syms g_error find_rule_precedences] in *. apply prepare_spec in Hp as [ (f2 & Hs & _ & _ & HS & _) _ _ _ He _].
    unfold gsym. cbn [g_syms]. rewrite He, HS.
    assert (L1 : exists s, nth_error (f_syms f) 1 = Some s /\ sy_use s = euse f0).
    { destruct (decls_kept _ _ _ _ H0 J_init) as ((l & Hl) & _). unfold euse. unfold FrontFacts.names in Hl. rewrite Ef. cbn [f_syms set_syms]. destruct (f_syms f0) as [|s0 [|s1 r]]; [discriminate..|]. exists s1. auto. }
    destruct L1 as (s1 & H1 & <-). assert (Ln : 1 < List.length (f_syms f)) by (apply nth_error_Some; congruence). pose proof (index_of_nth f 1 Ln) as Hi.
    erewrite nth_error_nth; [|rewrite nth_error_map, Hi; reflexivity]. cbn. destruct (shape_nth _ _ _ _ Hs H1) as (s' & Hs' & _ & _ & _ & _ & Eu). unfold get_sym. now rewrite (nth_error_nth _ _ _ Hs'). }
  rewrite HE, HU. assert (Hg : g_error g <> 0) by (pose proof (proj1 (wg_error g W)) as K; apply (wg_nonterm g W) in K; pose proof (wg_nterm_pos g W); lia).
  unfold cnt. pose proof (count_occ_In string_dec (flat_map mention ds) "error") as HC. assert (HM : mentions ds "error" <-> In "error" (flat_map mention ds)) by (unfold mentions; rewrite in_flat_map; tauto).
  destruct (Nat.ltb_spec 1 (1 + count_occ string_dec (flat_map mention ds) "error")) as [L|L]; split; auto.
  - intros Hnm. exfalso. apply Hnm, HM, HC. lia.
  - intros _ Hm. apply HM, HC in Hm. lia.
Qed.

(** ** C16 *)
Lemma fallback_names a c : fallback_of ds a = Some c -> upper a /\ exists ids, In (DFallback c ids) ds /\ In a ids.
Proof.
  intros H. split; [destruct EX as (fuel & ord & Ho & HB); eapply fallback_upper; eauto|]. apply first_of_in in H as (d & Hin & E). destruct d; try discriminate.
  destruct (listed a ids) eqn:El; [|discriminate]. injection E as ->. apply listed_in in El. eauto.
Qed.
(** Following %fallback never comes back to a token, and ends. *)
Theorem fallback_acyclic : no_self_fallback ds -> forall a c, fallback_of ds a = Some c -> ~ falls ds c a.
Proof.
  intros NS a c Ha Hf. destruct (ex_decl ds b EX) as (opts & DE). pose proof (ex_wf ds b EX) as W.
  assert (AC : acyclic_fb g) by (destruct EX as (fuel & ord & Ho & H); eapply build_acyclic; eauto).
  destruct (fallback_names a c Ha) as [U _]. assert (Hne : a <> "") by (intros ->; now apply upper_empty in U).
  destruct (in_dec string_dec a (map (gname g) (seq 0 (List.length (g_syms g))))) as [Hin|Hout].
  - apply in_map_iff in Hin as (i & <- & Hi). apply in_seq in Hi. assert (Ai : at_name g i (gname g i)) by (exists (gsym g i); split; [apply nth_error_nth'; lia|reflexivity]).
    destruct (sym_decl ds g opts DE _ _ Ai Hne) as (_ & E2 & _). rewrite Ha in E2. destruct (sy_fb (gsym g i)) as [k|] eqn:Ek; [|discriminate]. injection E2 as <-.
    destruct (wg_fb g W i (gsym g i) k) as (_ & Lk & _); auto; [apply nth_error_nth'; lia|].
    assert (Uk : upper (gname g k)) by (eapply (de_fbname _ _ _ DE i (gsym g i)); eauto; apply nth_error_nth'; lia).
    destruct (falls_up ds g opts DE W k (gname g i)) as (j & Aj & Fj & _); auto; [intros E0; rewrite E0 in Uk; now apply upper_empty in Uk|].
    assert (j = i) by (eapply (de_uniq _ _ _ DE); eauto). subst j. exact (AC i k Ek Fj).
  - destruct (de_out _ _ _ DE a Hne) as (_ & E & _); [|congruence]. intros i Hi. apply Hout. apply in_map_iff. exists i. split; [eapply at_gname; eauto|]. apply in_seq. split; [lia|]. cbn. eapply at_lt; eauto.
Qed.
End Any.

Fixpoint follow (ds : list decl) (k : nat) (a : ident) : option ident :=
  match k with 0 => Some a | S k' => match follow ds k' a with Some c => fallback_of ds c | None => None end end.
Definition targets (ds : list decl) : list ident := flat_map (fun d => match d with DFallback fb _ => [fb] | _ => [] end) ds.
Theorem fallback_ends ds b : expands ds b -> no_self_fallback ds -> forall a, follow ds (S (List.length (targets ds))) a = None.
Proof.
  intros EX NS a.
  assert (HL : forall k z, follow ds k a = Some z -> exists l, List.length l = k /\ NoDup l /\ incl l (targets ds) /\ forall x, In x l -> falls ds x z).
  { induction k as [|k IH]; intros z H; cbn [follow] in H.
    - exists []. splits; auto; [constructor|intros x []|intros x []].
    - destruct (follow ds k a) as [y|]; [|discriminate]. destruct (IH y eq_refl) as (l & L1 & L2 & L3 & L4).
      assert (HF : forall x, In x l -> falls ds x z) by (intros x Hx; econstructor; [apply L4; exact Hx|exact H]).
      exists (z :: l). splits.
      + cbn. now rewrite L1.
      + constructor; auto. intros Hz. apply (fallback_acyclic ds b EX NS y z H). now apply L4.
      + intros x [<-|Hx]; auto. destruct (fallback_names ds b EX y z H) as (_ & ids & Hin & _). unfold targets. apply in_flat_map. exists (DFallback z ids). cbn. auto.
      + intros x [<-|Hx]; auto. constructor. }
  destruct (follow ds (S (List.length (targets ds))) a) as [z|] eqn:E; auto. exfalso. destruct (HL _ _ E) as (l & L1 & L2 & L3 & _). pose proof (NoDup_incl_length L2 L3). lia.
Qed.

(** ** The stack limit (C19) *)
Section Limit.
Context (ds : list decl) (b : built) (EX : expands ds b).
Notation t := (bt_tables b).
Context {V X E : Type} (sm : sem V X E).
Notation h := (user_hooks t sm).
(** The same parser with an unlimited stack *)
Definition unlimited_run (n : nat) (x : X) (ks : list (token V)) := api_run n (unlimited t) sm x ks.

Lemma unl_hooks : user_hooks (unlimited t) sm = h.
Proof. reflexivity. Qed.

Theorem limit_respected n x ks : 0 < limit_of ds ->
  rpost (fun p => List.length (ps_stack p) <= limit_of ds) (fun _ p => List.length (ps_stack p) <= limit_of ds)
    (parse_all n t h (new_parser h x) (map (token_value t sm) ks)).
Proof.
  intros Hl. rewrite <- (limit_eq ds b EX) in *. eapply rpost_imp; [apply stack_bounded| |]; cbn; intros; lia.
Qed.
(** The overflow code runs only with a full stack, ends the call with its value, and otherwise
    the parser does what it would do without a limit. *)
Definition stopped_full (r : res (minor V) X E V (V * X)) : Prop :=
  exists e p k l x, r = RErr e p /\ ps_log p = k :: l /\ (exists a, k = EvOverflow a) /\ List.length (ps_stack p) = limit_of ds /\ 0 < limit_of ds /\
    exists tok, u_overflow sm tok x = (ps_extra p, e).
Definition overflow_logged (r : res (minor V) X E V (V * X)) : Prop :=
  match r with ROk _ p | RErr _ p => exists a, In (EvOverflow a) (ps_log p) | _ => False end.
Theorem limit_only n x ks :
  (api_run n t sm x ks = unlimited_run n x ks /\ ~ overflow_logged (api_run n t sm x ks)) \/ stopped_full (api_run n t sm x ks).
Proof.
  unfold unlimited_run, api_run. change (map (token_value (unlimited t) sm) ks) with (map (token_value t sm) ks). rewrite unl_hooks. set (ts := map (token_value t sm) ks).
  destruct (run_alike t h n x ts) as [Ha|Ha].
  - left. split; auto. rewrite Ha. pose proof (no_overflow (unlimited t) h eq_refl n x ts) as HN. destruct (run n (unlimited t) h x ts) as [a p|e p| |]; cbn in *; auto; intros (k & Hk); eapply HN; eauto.
  - right. destruct Ha as (e & p & a & m & l & y & Hr & Hlog & Ho & H1 & H2). rewrite (limit_eq ds b EX) in H1, H2. exists e, p, (EvOverflow a), l, y. splits; eauto; [|exists (token_build t a m); exact Ho].
    assert (HB : List.length (ps_stack p) <= limit_of ds); [|lia]. rewrite <- (limit_eq ds b EX) in *.
    pose proof (stack_bounded t h n x ts) as HS. unfold run in Hr. destruct (parse_all n t h (new_parser h x) ts) as [[] q|e' q| |]; cbn [rbind rpost] in *; try discriminate.
    + pose proof (parse_token_fits t h n q 0 (h_unit h)) as HF. unfold end_of_input in Hr. specialize (HF HS).
      destruct (parse_token n t h q 0 (h_unit h)) as [[] q'|e' q'| |]; cbn [rbind rpost] in *; try discriminate; [destruct (ps_status q'); discriminate|].
      injection Hr as _ ->. destruct HF as [HF|HF]; [lia|exact HF].
    + injection Hr as _ ->. destruct HS as [HS|HS]; [lia|exact HS].
Qed.
End Limit.

(** ** Silence after an error (C20) *)
Theorem reports_spaced_decl ds b {V X E} (sm : sem V X E) n x ks : expands ds b -> ~ mentions ds "error" ->
  rpost (fun p => spaced (ps_log p)) (fun _ p => spaced (ps_log p)) (parse_all n (bt_tables b) (user_hooks (bt_tables b) sm) (new_parser (user_hooks (bt_tables b) sm) x) (map (token_value (bt_tables b) sm) ks)).
Proof. intros EX Hm. apply reports_spaced. now apply (err_eq ds b EX). Qed.

(** ** Inside a call (C21, C22, C29) *)
Section Build.
Context (ds : list decl) (b : built).
Notation g := (bt_grammar b). Notation t := (bt_tables b).
Hypothesis EX : expands ds b.
Hypothesis US : usable ds b.
Notation P := (ex_pipe ds b EX US).
Notation Au := (ex_aut ds b EX).
Notation W := (ex_wf ds b EX).
Notation ns := (List.length (p_states (bt_auto b))).
Notation num := (state_num g (bt_comp b)).
Context {V X E : Type} (sm : sem V X E).
Notation h := (user_hooks t sm).
Notation prs := (parser (minor V) X V).

(** The parsers the loop of parse() sees: a new one, one that a call has left, and one after a
    reduction the table asked for on some token or at the end of the input. *)
Inductive midway : prs -> Prop :=
| mw_new x : midway (new_parser h x)
| mw_call p n k p' : midway p -> token_wf t k -> api_parse n t sm p k = ROk tt p' -> midway p'
| mw_reduce p top rest a r p' : midway p -> ps_stack p = top :: rest -> a < t_nterm t -> r < t_nrule t ->
    find_shift_action t (e_state top) a = LAct (t_nstate t + r) -> yy_reduce t h p r = ROk tt p' -> ps_status p' = Normal -> midway p'.

Notation Saf := (safe g (bt_auto b) (bt_comp b) (stacked g t (fun _ _ => true)) (R := V) (X := X)).
Lemma midway_safe p : types_ok ds -> midway p -> Saf p.
Proof.
  intros TO. induction 1 as [x|p n k p' H IH Hk Hp|p top rest a r p' H IH Hs Ha Hr Hf Hy Hn].
  - apply (new_safe _ _ _ _ _ P).
  - unfold api_parse in Hp. destruct (token_value t sm k) as [a m] eqn:Ek.
    assert (Hin : In (a, m) (map (token_value t sm) [k])) by (rewrite <- Ek; now left).
    pose proof (input_wf ds b EX US sm [k] (Forall_cons _ Hk (Forall_nil _)) a m Hin) as HT.
    pose proof (parse_token_safe _ _ _ _ _ P _ _ _ (ex_hooks ds b EX US sm TO) n p a m IH (or_intror HT)) as HS. rewrite Hp in HS. destruct HS as [[-> _]|[_ HS]]; auto. destruct HT. lia.
  - destruct IH as [In1 (st & Xs & s & bot & Hsp & Est & Hb & Ht)]. destruct (spine_top g (bt_auto b) (bt_comp b) st Xs s bot Hsp Hb) as (top' & rest' & Et & Etop).
    rewrite Est, Et in Hs. injection Hs as <- <-. rewrite Etop in Hf. pose proof (spine_range g _ _ _ _ P _ _ _ Hsp) as Ls. rewrite (nterm_eq ds b EX US) in Ha.
    destruct (shift_answer g _ _ _ _ P s a Ls (or_introl Ha)) as (ac & Hac & HA). rewrite Hf in Hac. injection Hac as <-. rewrite (t_ns _ _ _ _ _ P) in HA. rewrite (t_nr _ _ _ _ _ P) in Hr.
    inversion HA as [Y q Hq Hm Hz Ea|r' b' Hl Hz Ea|Ea].
    + pose proof (num_lt g _ _ _ _ P q (proj1 (au_edge g _ Au _ _ _ Hq))). lia.
    + assert (r' = r) by lia. subst r'. pose proof (reduce_safe _ _ _ _ _ P _ _ _ (ex_hooks ds b EX US sm TO) p st Xs s bot r Hsp Est Hb Ht (look_item (bt_auto b) _ _ _ Hl)) as HR.
      rewrite Hy in HR. destruct HR as [(_ & root & l & Hst & _)|(_ & Hst & HT)]; [congruence|]. split; auto.
    + lia.
Qed.

(** *** C21 *)
(** State [s] has an item with the dot before the error symbol. *)
Definition takes_error (s : nat) : Prop := exists gamma r ru d al,
  state_of b gamma s /\ lr0 g gamma r d /\ nth_error (g_rules g) r = Some ru /\ nth_error (r_rhs ru) d = Some (g_error g, al).
(** A stack entry for the error symbol, or one whose state can shift it. *)
Definition catching (e : entry (minor V)) : Prop := e_major e = g_error g \/ exists s, s < ns /\ e_state e = num s /\ takes_error s.

Lemma takes_edge s : s < ns -> (takes_error s <-> exists q, edge g (bt_auto b) s (g_error g) q).
Proof.
  intros Hs. split.
  - intros (gamma & r & ru & d & al & [_ HR] & Hl & Hr & HX). apply HR in Hl. eapply (au_next g _ Au); [exact Hl|]. unfold kpost, grule; cbn; now rewrite (nth_error_nth _ _ _ Hr), HX.
  - intros (q & He). destruct (au_edge g _ Au _ _ _ He) as (_ & [r d] & Hi & HK). destruct (states_exact g _ Au) as (S1 & _). destruct (S1 s Hs) as (gamma & Hg).
    unfold kpost in HK. cbn in HK. destruct (nth_error (r_rhs (grule g r)) d) as [[X' al]|] eqn:EX'; [|discriminate]. injection HK as ->. pose proof (au_valid g _ Au _ _ Hi) as [Lr _]. cbn in Lr.
    exists gamma, r, (grule g r), d, al. splits; auto; [split; auto|now apply Hg|apply nth_error_nth'; auto].
Qed.
Lemma err_known : mentions ds "error" -> t_err t = g_error g /\ t_err t <> 0.
Proof.
  intros HM. assert (Hne : t_err t <> 0) by (intros E0; apply (err_eq ds b EX) in E0; auto). split; auto. pose proof (t_er _ _ _ _ _ P) as HE. destruct (1 <? _); congruence.
Qed.
Lemma catching_is e s : mentions ds "error" -> s < ns -> e_state e = num s -> (catching e /\ catches t e) \/ (~ catching e /\ passes t e).
Proof.
  intros HM Hs Es. destruct (err_known HM) as [HE Hne]. unfold catching, catches, passes. rewrite <- HE.
  destruct (Nat.eq_dec (e_major e) (t_err t)) as [Em|Em]; [left; auto|].
  assert (HK : forall s', s' < ns -> e_state e = num s' -> takes_error s' -> exists a, find_reduce_action t (e_state e) (t_err t) = LAct a /\ a < t_nstate t).
  { intros s' Hs' Es' HT. apply takes_edge in HT as (q & Hq); auto. rewrite Es'. exists (num q). rewrite HE. split.
    - apply (goto_lookup _ _ _ _ _ P); auto; apply (wg_error g W).
    - rewrite (t_ns _ _ _ _ _ P). apply (num_lt g _ _ _ _ P). apply (au_edge g _ Au _ _ _ Hq). }
  destruct (error_lookup _ _ _ _ _ P s Hs Hne) as (a & Ha & Hq). destruct (Nat.lt_ge_cases a (t_nstate t)) as [L|L].
  - left. rewrite <- (t_ns _ _ _ _ _ P) in Hq. destruct (Hq L) as (q & -> & Hq'). rewrite HE in Hq'. split; [right; exists s; splits; auto; apply takes_edge; eauto|right; rewrite Es; eauto].
  - right. split; [|split; auto; rewrite Es; eauto]. intros [?|(s' & Hs' & Es' & HT)]; [contradiction|]. destruct (HK s' Hs' Es' HT) as (a' & Ha' & La'). rewrite Es, Ha in Ha'. injection Ha' as <-. lia.
Qed.
Lemma spine_entries st Xs s bot : spine g (bt_auto b) (bt_comp b) st Xs s -> e_state bot = num 0 -> forall e : entry (minor V), In e (st ++ [bot]) -> exists q, q < ns /\ e_state e = num q.
Proof.
  intros Hs Hb. induction Hs as [|st Xs s e Y q H IH Hq He]; intros e' Hin.
  - destruct Hin as [<-|[]]. exists 0. split; auto. apply (au_pos g _ Au).
  - destruct Hin as [<-|Hin]; auto. exists q. split; auto. apply (au_edge g _ Au _ _ _ Hq).
Qed.

Theorem recovery n p k top stk : types_ok ds -> midway p -> mentions ds "error" -> token_wf t k ->
  ps_stack p = top :: stk -> find_shift_action t (e_state top) (fst k) = LAct (t_nstate t + t_nrule t) ->
  exists above rest, ps_stack p = above ++ rest /\ Forall (fun e => ~ catching e) above /\
    let p0 := mkParser (ps_count p) rest (ps_extra p) Normal (pops (List.length above) (ps_log p)) in
    match rest with
    | [] => (* nothing on the stack takes the error symbol *)
        exists x e, u_fail sm (ps_extra p) = (x, e) /\
          api_parse (S n) t sm p k = RErr e (set_status (log (set_extra p0 x) EvParseFail) Failed)
    | e :: _ => catching e /\
        (* the error symbol is already there *)
        (e_major e = g_error g -> api_parse (S n) t sm p k = ROk tt (log (set_count p0 3) (EvDrop (fst k)))) /\
        (* otherwise it is pushed there, with the value of %syntax_error *)
        (e_major e <> g_error g -> exists s q, s < ns /\ e_state e = num s /\ edge g (bt_auto b) s (g_error g) q /\
           let '(x, ve) := h_syntax h (fst k) (snd (token_value t sm k)) (expected_tokens t (e_state top)) (ps_extra p) in
           let p1 := log (set_extra p0 x) (EvSyntaxError (fst k)) in
           match ve with
           | inr er => api_parse (S n) t sm p k = RErr er (set_status p1 Failed)
           | inl v => 
               (t_limit t = 0 \/ List.length rest < t_limit t ->
                 api_parse (S n) t sm p k = ROk tt (log (set_count (log (set_stack p1 (mkEntry (num q) (g_error g) v :: rest)) EvError) 3) (EvDrop (fst k)))) /\
               (t_limit t <> 0 -> t_limit t <= List.length rest -> exists x' e', h_overflow h (g_error g) v x = (x', e') /\
                 api_parse (S n) t sm p k = RErr e' (set_status (log (set_extra p1 x') (EvOverflow (g_error g))) Failed))
           end)
    end.
Proof.
  intros TO HW HM Hk Hst Hf. destruct (err_known HM) as [HE Hne]. destruct (midway_safe p TO HW) as [Hno (st & Xs & s & bot & Hsp & Est & Hb & _)].
  destruct (split_catch t (ps_stack p)) as (above & rest & Hs & HA & HR).
  { intros e He. rewrite Est in He. destruct (spine_entries _ _ _ _ Hsp Hb e He) as (q & Lq & Eq). destruct (catching_is e q HM Lq Eq); tauto. }
  assert (HC : forall e, In e (ps_stack p) -> catching e <-> catches t e).
  { intros e He. rewrite Est in He. destruct (spine_entries _ _ _ _ Hsp Hb e He) as (q & Lq & Eq). destruct (catching_is e q HM Lq Eq) as [[? ?]|[? [P1 (a & P2 & P3)]]]; [tauto|]. split; [tauto|].
    intros [C|(a' & C & C')]; [contradiction|]. rewrite P2 in C. injection C as <-. lia. }
  assert (HE0 : forall r, syntax_error t h p (e_state top) (fst k) (snd (token_value t sm k)) = r ->
     api_parse (S n) t sm p k = match r with RErr e p1 => RErr e (set_status p1 Failed) | r => r end).
  { intros r <-. unfold api_parse, token_value. unfold parse_token. rewrite Hno. cbn [parse_token_2]. rewrite Hno, Hst, Hf.
    replace (t_nstate t + t_nrule t <? t_nstate t) with false by (symmetry; apply Nat.ltb_ge; lia). rewrite Nat.ltb_irrefl, Nat.eqb_refl. cbn [fst snd]. destruct (syntax_error _ _ _ _ _ _); reflexivity. }
  destruct Hk as [[Ha0 _] _]. assert (Ha : fst k <> 0) by lia.
  pose proof (recovery_exact t h p (e_state top) (fst k) (snd (token_value t sm k)) above rest Ha Hne Hs HA) as HX.
  exists above, rest. splits; auto.
  - apply Forall_forall. intros e He Hc. apply HC in Hc; [|rewrite Hs; apply in_or_app; auto]. rewrite Forall_forall in HA. destruct (HA e He) as [P1 (a & P2 & P3)]. destruct Hc as [C|(a' & C & C')]; [contradiction|]. rewrite P2 in C. injection C as <-. lia.
  - cbv zeta. unfold caught in HX. rewrite Hno in HX. destruct rest as [|e rest].
    + unfold yy_parse_failed in HX. cbn [h_fail user_hooks ps_extra] in HX. destruct (u_fail sm (ps_extra p)) as [x er]. exists x, er. split; auto. now rewrite (HE0 _ HX).
    + destruct HX as [H1 H2]. assert (He : In e (ps_stack p)) by (rewrite Hs; apply in_or_app; right; now left). splits.
      * apply HC; auto.
      * intros Em. rewrite <- HE in Em. now rewrite (HE0 _ (H1 Em)).
      * intros Em. rewrite <- HE in Em. destruct HR as [?|(a & Ha' & La)]; [contradiction|]. pose proof He as He'. rewrite Est in He'. destruct (spine_entries _ _ _ _ Hsp Hb e He') as (q0 & Lq0 & Eq0).
        destruct (error_lookup _ _ _ _ _ P q0 Lq0 Hne) as (a' & Ha'' & Hq). pose proof Ha' as Ha3. rewrite Eq0, Ha'' in Ha3. injection Ha3 as ->. rewrite <- (t_ns _ _ _ _ _ P) in Hq. destruct (Hq La) as (q & -> & Hqe). rewrite HE in Hqe.
        exists q0, q. splits; auto. specialize (H2 Em _ Ha' La). cbn [ps_extra] in H2.
        destruct (h_syntax h (fst k) (snd (token_value t sm k)) (expected_tokens t (e_state top)) (ps_extra p)) as [x [v|er]].
        -- unfold yy_shift in H2. cbn [ps_stack log set_extra] in H2. rewrite HE in H2. split.
           ++ intros HL. replace (negb (t_limit t =? 0) && (t_limit t <=? List.length (e :: rest))) with false in H2; [now rewrite (HE0 _ H2)|]. symmetry. apply andb_false_iff.
              destruct HL as [->|HL]; [left; reflexivity|right; apply Nat.leb_gt; exact HL].
           ++ intros L1 L2. replace (negb (t_limit t =? 0) && (t_limit t <=? List.length (e :: rest))) with true in H2 by (symmetry; apply andb_true_iff; split; [apply negb_true_iff, Nat.eqb_neq; auto|now apply Nat.leb_le]).
              match type of H2 with context [h_overflow h ?a0 ?v0 ?y0] => change y0 with x in H2 end. destruct (h_overflow h (g_error g) v x) as [x' e'] eqn:Eo. exists x', e'. split; auto. rewrite (HE0 _ H2). cbn [rbind]. reflexivity.
        -- now rewrite (HE0 _ H2).
Qed.
End Build.
