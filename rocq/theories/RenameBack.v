(** The back end and the generated parser do not look at the names of symbols (C49). *)
From Verif Require Import Base Syntax BaseFacts FrontEnd First States Actions Tables Runtime User DeclSpec DeclMore PipeFacts Main Rename.
Open Scope string_scope. Open Scope nat_scope. Open Scope list_scope.

Lemma gfold_ext_in {A S} (F G : S -> A -> gres S) l : (forall s a, In a l -> F s a = G s a) -> forall s, gfold F l s = gfold G l s.
Proof. induction l as [|a l IH]; intros H s; cbn; auto. rewrite H by now left. destruct (G s a); cbn; auto. apply IH. intros. apply H. now right. Qed.
Lemma fold_left_ext {A S} (F G : S -> A -> S) : (forall s a, F s a = G s a) -> forall l s, fold_left F l s = fold_left G l s.
Proof. intros H. induction l as [|a l IH]; intros s; cbn; auto. now rewrite H, IH. Qed.
Lemma gbind_ext {A B} (x y : gres A) (F G : A -> gres B) : x = y -> (forall a, F a = G a) -> gbind x F = gbind y G.
Proof. intros -> H. destruct y; cbn; auto. Qed.

Section Back.
Context (u : ident -> ident).
Local Notation rs := (rs u).
Local Notation rf := (rf u).
Local Notation rg := (rg u).

Lemma rg_sym g i : gsym (rg g) i = rs (gsym g i).
Proof. unfold gsym. change dummy_sym with (rs dummy_sym) at 1. apply map_nth. Qed.
Lemma rg_kind g i : sy_kind (gsym (rg g) i) = sy_kind (gsym g i).
Proof. now rewrite rg_sym. Qed.
Lemma rg_prec g i : sy_prec (gsym (rg g) i) = sy_prec (gsym g i).
Proof. now rewrite rg_sym. Qed.
Lemma rg_type g i : has_type (rg g) i = has_type g i.
Proof. unfold has_type. now rewrite rg_sym. Qed.
Lemma rg_len g : List.length (g_syms (rg g)) = List.length (g_syms g).
Proof. apply map_length. Qed.

Lemma first_some_ext {A B} (p q : A -> option B) l : (forall a, p a = q a) -> first_some p l = first_some q l.
Proof. intros H. induction l as [|a l IH]; cbn; auto. now rewrite H, IH. Qed.
Lemma precs_same g : find_rule_precedences (rg g) = rg (find_rule_precedences g).
Proof.
  unfold find_rule_precedences. unfold Rename.rg. cbn [g_syms g_rules g_nterm g_dflt g_start g_error g_wild g_fe]. f_equal. apply map_ext. intros r. f_equal. unfold rule_precedence. destruct (r_precsym r).
  - exact (rg_prec g n).
  - apply first_some_ext. intros p. unfold rhs_sym_prec. change (sy_kind (gsym (rg g) (fst p))) with (sy_kind (gsym (rg g) (fst p))).
    pose proof (rg_kind g (fst p)) as EK. pose proof (rg_prec g (fst p)) as EP. unfold Rename.rg in EK, EP. rewrite EK, EP. destruct (sy_kind (gsym g (fst p))); auto. apply first_some_ext. exact (rg_prec g).
Qed.
Lemma normalize_rule_same g r : normalize_rule (rg g) r = normalize_rule g r.
Proof.
  unfold normalize_rule. rewrite rg_type. rewrite (filter_ext _ (fun p => has_type g (fst p)) (fun p => rg_type g (fst p))).
  rewrite (map_ext (fun p => (fst p, if has_type (rg g) (fst p) then true else snd p)) (fun p => (fst p, if has_type g (fst p) then true else snd p)) (fun p => f_equal (fun b : bool => (fst p, if b then true else snd p)) (rg_type g (fst p)))). reflexivity.
Qed.
Lemma normalize_same g : sim (fun a b => b = rg a) (normalize_rules g) (normalize_rules (rg g)).
Proof.
  unfold normalize_rules. eapply (sim_bind eq).
  - apply sim_eq, gfold_ext_in. intros acc r _. now rewrite normalize_rule_same.
  - intros rsl ? <-. reflexivity.
Qed.

(** *** FIRST sets and states *)
Lemma lambda_same g fuel : forall lam, lambda_loop fuel (rg g) lam = lambda_loop fuel g lam.
Proof. induction fuel as [|n IH]; intros lam; cbn; auto. cbn [g_rules rg]. destruct (fold_left _ _ _) as [l []]; auto. Qed.
Lemma first_rhs_same g lam s1 : forall rhs fs pr, first_rhs (rg g) lam s1 rhs fs pr = first_rhs g lam s1 rhs fs pr.
Proof. induction rhs as [|[s2 al] rhs IH]; intros fs pr; cbn [first_rhs]; auto. rewrite rg_kind, !IH. destruct (sy_kind (gsym g s2)); auto. Qed.
Lemma first_loop_same g lam fuel : forall fs, first_loop fuel (rg g) lam fs = first_loop fuel g lam fs.
Proof.
  induction fuel as [|n IH]; intros fs; cbn [first_loop]; auto. rewrite (fold_left_ext _ (fun st r => first_rhs g lam (r_lhs r) (r_rhs r) (fst st) (snd st))) by (intros; apply first_rhs_same).
  change (g_rules (rg g)) with (g_rules g). destruct (fold_left _ _ _) as [l []]; auto.
Qed.
Lemma firsts_same g fuel : find_first_sets fuel (rg g) = find_first_sets fuel g.
Proof. unfold find_first_sets. rewrite rg_len. apply gbind_ext; [apply lambda_same|]. intros lam. apply gbind_ext; auto. apply first_loop_same. Qed.
Lemma follow_rest_same g fi : forall rest fws, follow_rest (rg g) fi rest fws = follow_rest g fi rest fws.
Proof. induction rest as [|[x al] rest IH]; intros fws; cbn [follow_rest]; auto. rewrite rg_kind. destruct (sy_kind (gsym g x)); auto. cbv zeta. now rewrite IH. Qed.
Lemma closure_loop_same g fi fuel : forall i cur cs, closure_loop fuel (rg g) fi i cur cs = closure_loop fuel g fi i cur cs.
Proof.
  induction fuel as [|n IH]; intros i cur cs; cbn [closure_loop]; auto. destruct (nth_error cur i) as [cfp|]; auto. cbv zeta. change (grule (rg g)) with (grule g).
  destruct (nth_error _ _) as [[sp al]|]; auto. rewrite rg_kind, !IH. destruct (sy_kind (gsym g sp)); auto. change (rules_of (rg g) sp) with (rules_of g sp). destruct (rules_of g sp) as [|r0 rl]; auto.
  rewrite (fold_left_ext (closure_rule (rg g) fi cfp (skipn (S (c_dot (cfg cs cfp))) (r_rhs (grule g (c_rule (cfg cs cfp)))))) (closure_rule g fi cfp (skipn (S (c_dot (cfg cs cfp))) (r_rhs (grule g (c_rule (cfg cs cfp))))))).
  - destruct (fold_left _ _ _) as [c1 c2]. apply IH.
  - intros [c1 c2] r. unfold closure_rule. destruct (add_config c2 c1 r 0) as [[nc cu1] cs1]. now rewrite follow_rest_same.
Qed.
Lemma shift_actions_same g sp ns : shift_actions (rg g) sp ns = shift_actions g sp ns.
Proof. unfold shift_actions. now rewrite rg_kind. Qed.
Lemma shift_basis_same g sp : forall l b cs, shift_basis (rg g) sp l b cs = shift_basis g sp l b cs.
Proof.
  induction l as [|c l IH]; intros b cs; cbn [shift_basis]; auto. change (shift_sym (rg g)) with (shift_sym g). cbv zeta. rewrite !IH. destruct (c_complete _); auto. destruct (shift_sym g _) as [bsp|]; auto. destruct (bsp =? sp); auto.
  destruct (add_config _ _ _ _) as [[x y] z]. apply IH.
Qed.
Lemma build_shifts_same g get get' : (forall b p, get' b p = get b p) -> forall l aps p, build_shifts_loop (rg g) get' l aps p = build_shifts_loop g get l aps p.
Proof.
  intros HG. induction l as [|c l IH]; intros aps p; cbn [build_shifts_loop]; auto. change (shift_sym (rg g)) with (shift_sym g). cbv zeta. rewrite !IH. destruct (c_complete _); auto. destruct (shift_sym g _) as [sp|]; auto.
  rewrite shift_basis_same. destruct (shift_basis g sp (c :: l) [] (p_cfgs p)) as [b cs]. apply gbind_ext; [apply HG|]. intros [ns p']. rewrite shift_actions_same. apply IH.
Qed.
Lemma get_state_same g fi fuel : forall cur p, get_state fuel (rg g) fi cur p = get_state fuel g fi cur p.
Proof.
  induction fuel as [|n IH]; intros cur p; [reflexivity|]. cbn [get_state]. destruct (state_find p _) as [s|]; auto. apply gbind_ext; [apply closure_loop_same|]. intros [cf cs]. cbv zeta. apply gbind_ext; auto. now apply build_shifts_same.
Qed.
Lemma find_states_same g fi fuel : find_states fuel (rg g) fi = find_states fuel g fi.
Proof.
  unfold find_states. change (g_start (rg g)) with (g_start g). change (g_rules (rg g)) with (g_rules g). destruct (existsb _ _); auto. unfold start_basis. change (g_start (rg g)) with (g_start g). rewrite rg_kind. change (rules_of (rg g)) with (rules_of g).
  destruct (sy_kind (gsym g (g_start g))); try (apply gbind_ext; [apply get_state_same|reflexivity]). destruct (fold_left _ _ _) as [b cs]. apply gbind_ext; auto. apply get_state_same.
Qed.

(** *** Actions *)
Lemma resolve_conflict_same g la x y : resolve_conflict (rg g) la x y = resolve_conflict g la x y.
Proof. unfold resolve_conflict. change (grule (rg g)) with (grule g). now rewrite rg_prec. Qed.
Lemma resolve_against_same g : forall l ap n, resolve_against (rg g) ap l n = resolve_against g ap l n.
Proof. induction l as [|b l IH]; intros ap n; cbn [resolve_against]; auto. rewrite resolve_conflict_same. destruct (_ =? _); auto. destruct (resolve_conflict g _ _ _) as [[dx dy] e]. now rewrite IH. Qed.
Lemma resolve_all_same g : forall k l n, resolve_all (rg g) k l n = resolve_all g k l n.
Proof. induction k as [|k IH]; intros l n; cbn [resolve_all]; auto. destruct l as [|ap l]; auto. rewrite resolve_against_same. destruct (resolve_against g ap l n) as [[a b] c]. now rewrite IH. Qed.
Lemma find_actions_same g p : find_actions (rg g) p = find_actions g p.
Proof.
  unfold find_actions. change (raw_actions (rg g) p) with (raw_actions g p). rewrite (map_ext (resolve_state (rg g)) (resolve_state g)); [reflexivity|]. intros s. unfold resolve_state. now rewrite resolve_all_same.
Qed.
Lemma fallback_differs_same g acts d fuel : forall s, fallback_differs fuel (rg g) acts d s = fallback_differs fuel g acts d s.
Proof. induction fuel as [|n IH]; intros s; cbn [fallback_differs]; auto. rewrite rg_sym. cbn [sy_fb Rename.rs]. destruct (sy_fb (gsym g s)) as [fb|]; auto. rewrite IH. reflexivity. Qed.
Lemma ignored_same g fuel acts : ignored_actions fuel (rg g) acts = ignored_actions fuel g acts.
Proof. unfold ignored_actions. change (f_has_fb (g_fe (rg g))) with (f_has_fb (g_fe g)). destruct (f_has_fb _); auto. apply gfold_ext_in. intros s a _. now rewrite fallback_differs_same. Qed.
Lemma find_best_same g ign : forall l b, find_best (rg g) ign l b = find_best g ign l b.
Proof.
  induction l as [|a l IH]; intros b; cbn [find_best]; auto. change (g_wild (rg g)) with (g_wild g). change (lhs_start (rg g)) with (lhs_start g). rewrite !IH. destruct (smem _ _); auto. destruct (a_det a); auto; [|now rewrite IH]. destruct (g_wild g); auto.
Qed.
Lemma make_default_same g ign r : forall l, make_default (rg g) ign r l = make_default g ign r l.
Proof. induction l as [|a l IH]; cbn [make_default]; auto. now rewrite IH. Qed.
Lemma compress_same g fuel p : compress_tables fuel (rg g) p = compress_tables fuel g p.
Proof.
  unfold compress_tables. apply gbind_ext; auto. apply gfold_ext_in. intros acc s _. apply gbind_ext; auto. unfold compress_state. apply gbind_ext; [apply ignored_same|]. intros ign. cbv zeta. rewrite find_best_same. destruct (b_rule _); auto. now rewrite make_default_same.
Qed.

(** *** Tables *)
Definition ren_tables (t : tables) : tables :=
  {| t_nstate := t_nstate t; t_nrule := t_nrule t; t_nsym := t_nsym t; t_nterm := t_nterm t; t_wild := t_wild t; t_err := t_err t;
     t_action := t_action t; t_lookahead := t_lookahead t; t_shift_ofst := t_shift_ofst t; t_shift_min := t_shift_min t; t_shift_max := t_shift_max t;
     t_reduce_ofst := t_reduce_ofst t; t_reduce_min := t_reduce_min t; t_reduce_max := t_reduce_max t; t_default := t_default t;
     t_fallback := t_fallback t; t_rules := t_rules t; t_limit := t_limit t; t_dts := t_dts t; t_typed := t_typed t; t_root := t_root t;
     t_names := map (rename u) (t_names t) |}.
Lemma rs_nth l i : nth i (map rs l) dummy_sym = rs (nth i l dummy_sym).
Proof. change dummy_sym with (rs dummy_sym) at 1. apply map_nth. Qed.
Definition tys (a b : typemap * list symbol * list nat) : Prop := b = (fst (fst a), map rs (snd (fst a)), snd a).
Lemma type_symbols_same g : sim tys (type_symbols g) (type_symbols (rg g)).
Proof.
  unfold type_symbols. rewrite rg_len. eapply (sim_fold eq tys); [apply forall2_same| |reflexivity]. intros i j [[m ss] dts] s' -> _ ->. cbn [fst snd]. unfold type_symbol. change (g_wild (rg g)) with (g_wild g). change (f_default_type (g_fe (rg g))) with (f_default_type (g_fe g)).
  destruct (opt_eqb _ _ _); [reflexivity|]. eapply (sim_bind eq).
  - rewrite rs_nth. cbn [sy_kind sy_type Rename.rs]. destruct (sy_kind (nth j ss dummy_sym)) as [| |[|c ms]]; try reflexivity. destruct (c =? j); [reflexivity|]. now rewrite rs_nth.
  - intros dt ? <-. cbv zeta. rewrite (upd_map rs (sym_set_type match dt with Some t => Some t | None => f_default_type (g_fe g) end)) by reflexivity.
    destruct (match dt with Some t => Some t | None => f_default_type (g_fe g) end) as [t|]; [|reflexivity]. destruct (type_find m t); reflexivity.
Qed.
Lemma rposition_map {A B} (h : A -> B) (p : B -> bool) l : rposition p (map h l) = rposition (fun a => p (h a)) l.
Proof. induction l as [|a l IH]; cbn; auto. now rewrite IH. Qed.
Lemma fallback_table_same syms dts : fallback_table (map rs syms) dts = fallback_table syms dts.
Proof.
  unfold fallback_table. rewrite rposition_map. cbn [sy_fb Rename.rs]. apply gfold_ext_in. intros acc i _. now rewrite rs_nth.
Qed.
Lemma translate_same g dts r : translate_code (rg g) dts r = translate_code g dts r.
Proof. unfold translate_code. apply gbind_ext; auto. apply gfold_ext_in. intros _ [X al] _. now rewrite rg_kind. Qed.
Lemma generate_same g p : sim (fun t t' => t' = ren_tables t) (generate_source g p) (generate_source (rg g) p).
Proof.
  unfold generate_source.
  change (all_counts (rg g) p) with (all_counts g p). change (state_order (rg g) p) with (state_order g p). change (g_wild (rg g)) with (g_wild g). change (g_rules (rg g)) with (g_rules g). change (pack_states (rg g) p) with (pack_states g p).
  change (f_token (g_fe (rg g))) with (f_token (g_fe g)). change (f_parser (g_fe (rg g))) with (f_parser (g_fe g)). change (f_stack_limit (g_fe (rg g))) with (f_stack_limit (g_fe g)). change (g_start (rg g)) with (g_start g). change (g_error (rg g)) with (g_error g). change (g_nterm (rg g)) with (g_nterm g). change (g_dflt (rg g)) with (g_dflt g).
  rewrite rg_len. cbv zeta. eapply (sim_bind eq).
  { destruct (g_wild g) as [w|]; [|reflexivity]. rewrite rg_type. destruct (has_type g w); reflexivity. }
  intros w ? <-. eapply sim_bind; [apply type_symbols_same|]. intros [[m syms] dts] ? ->. cbn [fst snd].
  eapply (sim_bind eq); [apply sim_eq; reflexivity|]. intros [] ? <-. eapply (sim_bind eq); [apply sim_eq; reflexivity|]. intros [] ? <-. eapply (sim_bind eq); [apply sim_eq; reflexivity|]. intros [] ? <-.
  eapply (sim_bind eq); [apply sim_eq; reflexivity|]. intros k ? <-. eapply (sim_bind eq); [apply sim_eq; reflexivity|]. intros so ? <-. eapply (sim_bind eq); [apply sim_eq; reflexivity|]. intros ro ? <-.
  eapply (sim_bind eq); [apply sim_eq; symmetry; apply fallback_table_same|]. intros fb ? <-. eapply (sim_bind eq).
  { apply sim_eq, gfold_ext_in. intros acc r _. now rewrite translate_same. }
  intros rr ? <-. cbn [sim]. rewrite rg_sym. unfold ren_tables. cbn -[type_find]. f_equal.
  - now rewrite map_map.
  - now rewrite rs_nth.
  - now rewrite firstn_map, !map_map.
Qed.

Definition ren_built (b b' : built) : Prop :=
  bt_grammar b' = rg (bt_grammar b) /\ bt_firsts b' = bt_firsts b /\ bt_auto b' = bt_auto b /\ bt_acts b' = bt_acts b /\ bt_comp b' = bt_comp b /\
  bt_tables b' = ren_tables (bt_tables b).
End Back.

(** The generated parser does not read YY_TOKEN_NAMES *)
Section Run.
Context (u : ident -> ident) (t : tables) {V X E : Type} (s : sem V X E).
Local Notation t' := (ren_tables u t).
Lemma shift_n_same n : forall st la, find_shift_action_n n t' st la = find_shift_action_n n t st la.
Proof. induction n as [|n IH]; intros st la; cbn [find_shift_action_n]; auto. cbn [ren_tables t_shift_ofst t_shift_min t_nsym t_action t_lookahead t_fallback t_wild]. rewrite IH. reflexivity. Qed.
Lemma shift_same st la : find_shift_action t' st la = find_shift_action t st la.
Proof. apply shift_n_same. Qed.
Lemma expected_same st : expected_tokens t' st = expected_tokens t st.
Proof. unfold expected_tokens. apply filter_ext. intros m. now rewrite shift_same. Qed.
Lemma recover_same (h : hooks (minor V) X E V) st0 a m n : forall p, recover t' h n st0 a m p = recover t h n st0 a m p.
Proof.
  induction n as [|n IH]; intros p; cbn [recover]; auto. destruct (ps_stack p) as [|top rest]; auto. change (t_err t') with (t_err t). destruct (_ =? _); auto. change (find_reduce_action t') with (find_reduce_action t). destruct (find_reduce_action t _ _); auto.
  change (t_nstate t') with (t_nstate t). rewrite IH, expected_same. reflexivity.
Qed.
Lemma token2_same n : forall p a m, parse_token_2 n t' (user_hooks t' s) p a m = parse_token_2 n t (user_hooks t s) p a m.
Proof.
  induction n as [|n IH]; intros p a m; cbn [parse_token_2]; auto. destruct (ps_status p); auto. destruct (ps_stack p) as [|top rest] eqn:ES; auto. rewrite shift_same. destruct (find_shift_action t (e_state top) a) as [x| |]; auto.
  change (t_nstate t') with (t_nstate t). change (t_nrule t') with (t_nrule t). destruct (x <? t_nstate t); [reflexivity|]. destruct (x <? _).
  - change (yy_reduce t' (user_hooks t' s)) with (yy_reduce t (user_hooks t s)). destruct (yy_reduce t _ p _); cbn [rbind]; auto.
  - destruct (x =? _); auto. unfold syntax_error. change (user_hooks t' s) with (user_hooks t s). change (t_err t') with (t_err t). rewrite recover_same, expected_same. reflexivity.
Qed.
Lemma token_same n p a m : parse_token n t' (user_hooks t' s) p a m = parse_token n t (user_hooks t s) p a m.
Proof. unfold parse_token. now rewrite token2_same. Qed.
Lemma all_same n : forall ts p, parse_all n t' (user_hooks t' s) p ts = parse_all n t (user_hooks t s) p ts.
Proof. induction ts as [|[a m] ts IH]; intros p; cbn [parse_all]; auto. rewrite token_same. destruct (parse_token n t _ p a m); cbn [rbind]; auto. Qed.
Lemma api_parse_same n p k : api_parse n t' s p k = api_parse n t s p k.
Proof. unfold api_parse. change (token_value t' s k) with (token_value t s k). destruct (token_value t s k). apply token_same. Qed.
Lemma eoi_same n p : end_of_input n t' (user_hooks t' s) p = end_of_input n t (user_hooks t s) p.
Proof. unfold end_of_input. now rewrite token_same. Qed.
Lemma api_run_same n x ks : api_run n t' s x ks = api_run n t s x ks.
Proof.
  unfold api_run, Runtime.run. change (token_value t' s) with (token_value t s). rewrite all_same. change (user_hooks t' s) with (user_hooks t s). destruct (parse_all n t _ _ _); cbn [rbind]; auto. apply eoi_same.
Qed.
End Run.

Section Whole.
Context (u : ident -> ident) (ds : list decl) (RN : renaming u ds).
Let N := "error" :: flat_map mention ds.
Lemma wn_term a : In a N -> is_terminal_ident (u a) = is_terminal_ident a.
Proof. intros [<-|H]; [now rewrite (rn_error _ _ RN)|now apply (rn_term _ _ RN)]. Qed.
Lemma wn_nonterm a : In a N -> is_nonterminal_ident (u a) = is_nonterminal_ident a.
Proof. intros [<-|H]; [now rewrite (rn_error _ _ RN)|now apply (rn_nonterm _ _ RN)]. Qed.

(** The macro ends alike on the renamed declarations: the same error, the same panic, or the
    same automaton and tables but for the names. *)
Theorem renamed_build fuel ord : sim (ren_built u) (build fuel ord ds) (build fuel ord (map (ren_decl u) ds)).
Proof.
  unfold build. eapply sim_bind.
  { apply (new_decls_sim u N (rn_error _ _ RN) (or_introl eq_refl) (rn_inj _ _ RN) wn_term wn_nonterm). intros z Hz. now right. }
  intros f f' HF. unfold build_fe. eapply sim_bind; [exact (prepare_sim u N ord f f' HF)|]. intros g0 ? ->. rewrite precs_same.
  eapply sim_bind; [apply normalize_same|]. intros g ? ->. eapply (sim_bind eq); [apply sim_eq; symmetry; apply firsts_same|]. intros fi ? <-. eapply (sim_bind eq); [apply sim_eq; symmetry; apply find_states_same|]. intros p1 ? <-.
  eapply (sim_bind eq); [apply sim_eq; reflexivity|]. intros p2 ? <-. eapply (sim_bind eq); [apply sim_eq; symmetry; apply find_actions_same|]. intros [p3 nc] ? <-. destruct (0 <? nc); [reflexivity|].
  eapply (sim_bind eq); [apply sim_eq; symmetry; apply compress_same|]. intros p4 ? <-. eapply sim_bind; [apply generate_same|]. intros t ? ->. cbn. unfold ren_built. cbn. splits; auto.
Qed.
End Whole.
