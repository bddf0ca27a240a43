(** Sessions with extra_mut() between the calls, in terms of the declarations (C42). *)
From Verif Require Import Base Syntax BaseFacts FrontEnd First States Actions Tables Runtime User Spec WfGrammar FirstFacts ClosureFacts AutoFacts LalrFacts ActFacts CompFacts LookFacts PipeFacts RunFacts FrontFacts
  SoundFacts SafeFacts BuildFacts AbsFacts HaltFacts TermFacts CompleteFacts CleanFacts RefFacts DeclSpec DeclFacts GramFacts LangFacts TypeFacts MeanSpec MeanFacts TypeDecl
  Session TimeSpec TimeFacts Main.
Open Scope string_scope. Open Scope nat_scope. Open Scope list_scope.

(** The input of a session: each token with its name, its value and what the caller does to
    the extra value after handing it over *)
Definition reading_with {V X E} (b : built) (sm : sem V X E) (ks : list (token V * (X -> X))) : list (ident * (V * (X -> X))) :=
  map (fun k => (tok_name b (fst (fst k)), (payload sm (fst k), snd k))) ks.

(** A caller who leaves the extra value alone *)
Lemma extra_mut_id {M X R} (p : parser M X R) : extra_mut p (fun y => y) = p.
Proof. now destruct p. Qed.
Theorem idle_session {V X E} n t (sm : sem V X E) x ks : api_with n t sm x (map (fun k => (k, fun y => y)) ks) = api_run n t sm x ks.
Proof.
  unfold api_with, api_run, run_with, run. f_equal. generalize (new_parser (user_hooks t sm) x) as p. induction ks as [|k ks IH]; intros p; cbn [map parse_with parse_all]; auto.
  unfold with_value at 1. cbn [fst snd]. destruct (token_value t sm k) as [a m]. cbn [fst snd].
  destruct (parse_token n t (user_hooks t sm) p a m) as [[] p1|e p1| |]; cbn [rbind]; auto. now rewrite extra_mut_id.
Qed.
Theorem idle_timed ds {V X E} (sm : sem V X E) tk : forall n w x x' v, timed ds sm tk n w x x' v -> Forall (fun q => forall y, snd (snd q) y = y) w ->
  means ds sm tk n (map (fun q => (fst q, fst (snd q))) w) x x' v.
Proof.
  apply (timed_mind ds V X E sm tk
    (fun n w x x' v => Forall (fun q => forall y, snd (snd q) y = y) w -> means ds sm tk n (map (fun q => (fst q, fst (snd q))) w) x x' v)
    (fun e w x x' v => Forall (fun q => forall y, snd (snd q) y = y) w -> means_elem ds sm tk e (map (fun q => (fst q, fst (snd q))) w) x x' v)
    (fun es w x x' vs => Forall (fun q => forall y, snd (snd q) y = y) w -> means_all ds sm tk es (map (fun q => (fst q, fst (snd q))) w) x x' vs)).
  - intros a v f b n x Ht Hs HF. inversion HF as [|? ? Hf _]; subst. cbn in Hf. rewrite Hf. econstructor; eauto.
  - intros d w vs v x x1 x2 Hd _ IH Hr HF. econstructor; eauto.
  - intros n al w x x' v _ IH HF. constructor. auto.
  - intros n al x _. constructor.
  - intros n al w x x' v _ IH HF. constructor. auto.
  - intros ns o al a v f b x Hl Ht Hb HF. inversion HF as [|? ? Hf _]; subst. cbn in Hf. rewrite Hf. econstructor; eauto.
  - intros x _. constructor.
  - intros e es w1 w2 x x1 x2 v vs _ IH1 _ IH2 HF. apply Forall_app in HF as [F1 F2]. rewrite map_app. econstructor; eauto.
Qed.

Section With.
Context (ds : list decl) (b : built) (EX : expands ds b) (US : usable ds b).
Notation g := (bt_grammar b).
Notation t := (bt_tables b).
Let P := ex_pipe ds b EX US.
Let W := ex_wf ds b EX.

Lemma reading_with_eq {V X E} (sm : sem V X E) (ks : list (token V * (X -> X))) : tokens_wf b (map fst ks) ->
  map (fun q : nat * ((nat * V) * (X -> X)) => (gname g (fst q), (snd (fst (snd q)), snd (snd q)))) (map (with_value t sm) ks) = reading_with b sm ks /\ toks_ok g (map (with_value t sm) ks).
Proof.
  induction ks as [|[k f] ks IH]; intros HF; cbn; [splits; auto; intros ? ? []|]. inversion HF as [|? ? [Hk _] HF']; subst. destruct (IH HF') as (-> & IH').
  cbn [fst] in Hk. rewrite (nterm_eq ds b EX US) in Hk. split; [rewrite (name_eq ds b EX US) by lia; reflexivity|].
  intros a m [E0|Hin]; [|eapply IH'; eauto]. injection E0 as <- <-. auto.
Qed.

Lemma root_at {V X E} (sm : sem V X E) m r s : fst m = dt_of t (g_start g) -> h_accept (user_hooks t sm) m = Some r -> start_of ds = Some s -> r = root_value ds sm s (snd m).
Proof.
  intros Hm Ha Hs. destruct (ex_decl ds b EX) as (opts & DE). destruct (de_start _ _ _ DE) as (s' & Hs' & As & Low). assert (s' = s) by congruence. subst s'.
  assert (Ls : g_start g < List.length (g_syms g)) by (eapply at_lt; eauto).
  unfold root_value. rewrite <- (dtype_name ds g opts DE W _ _ As) by auto. cbn in Ha.
  destruct (gen_types _ _ _ _ _ P) as (mm & sy & HT & I & HW & _ & ER & _). rewrite ER, (ti_done _ _ _ _ _ I _ Ls Ls) in Ha. pose proof (ti_map _ _ _ _ _ I _ Ls Ls) as HM. destruct (dtype g (g_start g)) as [ty|] eqn:Ed.
  - destruct (type_find mm ty) as [k|] eqn:Ef.
    + destruct (fst m =? k); [|discriminate]. now injection Ha as <-.
    + exfalso. eapply type_find_none; eauto.
  - destruct (type_find mm TyUnit) as [k|] eqn:Ef; [|now injection Ha as <-]. destruct (fst m =? k) eqn:Ek; [|discriminate]. apply Nat.eqb_eq in Ek. exfalso. apply type_find_some in Ef.
    apply In_nth_error in Ef as [j Hj]. apply (ti_num _ _ _ _ _ I) in Hj. unfold dt_of in Hm. lia.
Qed.
Lemma root_with {V X E} (sm : sem V X E) (mt : nat -> nat -> Prop) tr x x' m r s : (forall a Y, mt a Y -> tok_match g a Y) -> derives g mt (g_start g) tr -> evalw (user_hooks t sm) tr x = EvOk x' m -> h_accept (user_hooks t sm) m = Some r ->
  start_of ds = Some s -> r = root_value ds sm s (snd m).
Proof.
  intros MT HD He Ha Hs. apply (root_at sm m r s); auto. inversion HD as [a v Y Hm|q ru ts Hr Hts El]; subst.
  - exfalso. apply MT in Hm. destruct (wg_start g W) as [K _]. destruct Hm as [(c & _ & Hc)|(w & _ & Hc)]; now apply member_not_nonterm in Hc.
  - rewrite evalw_node in He. destruct (evalw_list _ ts x) as [x1 vs|? ?|]; try discriminate. unfold finish in He. destruct (h_reduce _ q vs x1) as [[x2 [v|e]]|] eqn:Eh; try discriminate. injection He as -> ->.
    assert (Lr : q < List.length (g_rules g)) by (apply nth_error_Some; congruence). destruct (rule_entry _ _ _ _ _ P q Lr) as (rr & Hrr & HL & _ & _ & Hdt & _).
    cbn in Eh. unfold rule_reduce in Eh. rewrite (nth_error_nth _ _ _ Hrr) in Eh. destruct (match_args _ vs); [|discriminate]. destruct (run_code _ _ _ x1) as [[x3 [v|e]]|]; try discriminate.
    injection Eh as _ <-. cbn. rewrite Hdt. unfold grule. now rewrite (nth_error_nth _ _ _ Hr).
Qed.

(** C42 *)
Theorem session_means {V X E} (sm : sem V X E) n x ks r x' pp : tokens_wf b (map fst ks) -> api_with n t sm x ks = ROk (r, x') pp -> ~ dropped pp ->
  exists s v, start_of ds = Some s /\ timed ds sm (taken ds) s (reading_with b sm ks) x x' v /\ r = root_value ds sm s v.
Proof.
  intros Hk H Hd. destruct (reading_with_eq sm ks Hk) as (ER & Hok). destruct (ex_decl ds b EX) as (opts & DE). destruct (de_start _ _ _ DE) as (s & Hs & As & Low).
  destruct (run_with_sound _ _ _ _ _ P _ n x _ r x' pp Hok H Hd) as (tree & m & [HD Hy] & He & Ha). exists s, (snd m). splits; auto.
  - rewrite <- ER, <- Hy. refine (proj1 (proj1 (tree_timed ds g opts DE _ _ _ _ P sm _ _ (linked_taken ds g opts DE W)) _ _ HD _ _ _ _ He) s As (or_intror Low)). exact (eq_ind_r (fun l => toks_ok g l) Hok Hy).
  - eapply (root_with sm (tok_match g)); eauto.
Qed.

Theorem session_accepted {V X E} (sm : sem V X E) ks s x x' v : plain ds -> types_ok ds -> tokens_wf b (map fst ks) -> start_of ds = Some s ->
  timed ds sm eq s (reading_with b sm ks) x x' v ->
  exists n, forall n', n <= n' ->
    (exists pp, api_with n' t sm x ks = ROk (root_value ds sm s v, x') pp) \/ overflowed t (user_hooks t sm) (api_with n' t sm x ks).
Proof.
  intros [PL1 PL2] TO Hk Hs HM. destruct (reading_with_eq sm ks Hk) as (ER & Hok). destruct (ex_decl ds b EX) as (opts & DE). destruct (de_start _ _ _ DE) as (s' & Hs' & As & Low). assert (s' = s) by congruence. subst s'.
  destruct (proj1 (timed_tree ds g opts DE _ _ _ _ P sm _ _ (linked_direct ds g opts DE W) (ex_sane ds b EX TO) (ex_auto ds b EX) (direct_match b)) _ _ _ _ _ HM (g_start g) _ As ER Hok) as (tr & m & HD & Hy & He & Hv & HS).
  { intros a m f Hin. apply in_map_iff in Hin as ([k f'] & Ek & Hin). unfold with_value in Ek. injection Ek as Ea Em Ef. cbn [fst snd] in *.
    apply (tokval_all ds b EX US sm (map fst ks) Hk a m). apply in_map_iff. exists k. split; [now rewrite <- Ea, <- Em|]. apply in_map_iff. exists (k, f'). auto. }
  assert (Ha : h_accept (user_hooks t sm) m = Some (root_value ds sm s v)).
  { destruct (h_accept (user_hooks t sm) m) as [r|] eqn:Ea.
    - f_equal. rewrite <- Hv. eapply (root_with sm (direct g)); eauto. apply direct_match.
    - exfalso. apply (val_acc g _ _ _ _ P (ex_sane ds b EX TO) sm _ m HS Ea). }
  pose proof (pipe_unlimited _ _ _ _ _ P) as PU.
  destruct (run_with_complete _ _ _ _ _ PU (user_hooks t sm) (clean_lookup _ _ _ _ _ PU (decls_clean _ _ _ DE PL1) (decls_wild _ _ _ DE PL2)) tr x x' m (root_value ds sm s v) HD eq_refl (eq_ind_r (fun l => toks_ok g l) Hok Hy) He Ha) as (n & pp & HR).
  exists n. intros n' Hn. pose proof (eq_ind _ (fun l => run_with n (unlimited t) (user_hooks t sm) x l = _) HR _ Hy) as HR'. clear HR. rename HR' into HR. cbn beta in HR. pose proof (run_with_mono (unlimited t) (user_hooks t sm) n n' x (map (with_value t sm) ks) Hn) as HN. rewrite HR in HN. specialize (HN ltac:(discriminate)).
  destruct (run_with_alike t (user_hooks t sm) n' x (map (with_value t sm) ks)) as [Hq|Hq]; [left|right; exact Hq]. exists pp. unfold api_with. congruence.
Qed.
End With.
