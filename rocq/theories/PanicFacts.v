(** The macro itself does not panic (C36): the unreachable!(), unwrap(), assert!() and
    indexing of the generator that the model keeps as [GPanic] are not reached, unless a
    token class is left empty or begins with itself, or a state borrows itself while its
    actions are sorted ([PanicSort]). *)
From Coq Require Import Permutation.
From Verif Require Import Base Syntax BaseFacts FrontEnd First States Actions Tables Spec WfGrammar FirstFacts ClosureFacts StatesFacts DfsFacts FollowFacts AutoFacts LalrFacts ActFacts CompFacts TabFacts FrontFacts BuildFacts DeclSpec DeclFacts DeclMore GramFacts TypeDecl FaultSpec FaultAct PanicSort.
Open Scope string_scope. Open Scope nat_scope. Open Scope list_scope.

(** What syn hands over: an element of a right-hand side has at least one name. *)
Definition elems_named (ds : list decl) : Prop := forall lhs rhs c p toks o al, In (DRule lhs rhs c p) ds -> In (toks, o, al) rhs -> toks <> [].
(** Every token class has a first member, which is not the class itself. *)
Definition classes_begin (ds : list decl) : Prop := forall n ms, class_of ds n = Some ms -> exists m l, ms = m :: l /\ m <> n.

Lemma np_bind {A B} (x : gres A) (f : A -> gres B) : x <> GPanic -> (forall a, x = GOk a -> f a <> GPanic) -> gbind x f <> GPanic.
Proof. destruct x; cbn; intros H1 H2; auto; congruence. Qed.
Lemma gbind_panic {A B} (x : gres A) (f : A -> gres B) : gbind x f = GPanic -> x = GPanic \/ exists a, x = GOk a /\ f a = GPanic.
Proof. destruct x; cbn; intros H; eauto; discriminate. Qed.
Lemma np_gfold {A S} (f : S -> A -> gres S) (P : S -> Prop) : forall l s, P s ->
  (forall s a, In a l -> P s -> f s a <> GPanic /\ forall s', f s a = GOk s' -> P s') -> gfold f l s <> GPanic.
Proof.
  induction l as [|a l IH]; intros s Hs H; cbn [gfold]; [discriminate|]. destruct (H s a (or_introl eq_refl) Hs) as [H1 H2].
  apply np_bind; auto. intros s' E. apply IH; auto. intros s0 a0 H0. apply H. now right.
Qed.
Lemma np_gfold_easy {A S} (f : S -> A -> gres S) l s : (forall s a, f s a <> GPanic) -> gfold f l s <> GPanic.
Proof. intros H. apply (np_gfold f (fun _ => True)); auto. Qed.

(** ** Declarations *)
Lemma np_new f n t : t <> NMulti -> symbol_new f n t <> GPanic.
Proof. intros H. unfold symbol_new. destruct (if (n =? "")%string then None else _); [destruct t; try discriminate; congruence|discriminate]. Qed.
Lemma np_multi f n : FI f -> upper n \/ n = "" -> symbol_new f n NMulti <> GPanic.
Proof.
  intros F H. unfold symbol_new. destruct (String.eqb_spec n "") as [->|Hn]; [discriminate|]. destruct H as [U|]; [|contradiction].
  destruct (position _ _) as [j|] eqn:Ep; [|discriminate]. apply position_some in Ep as (s & Hs & Es & _). apply String.eqb_eq in Es. rewrite (get_sym_nth _ _ _ Hs).
  destruct (fi_syms f F _ _ Hs) as [K _]. destruct (sy_kind s); try discriminate. exfalso. cbn in K. rewrite Es in K. now apply (upper_not_lowish n).
Qed.
Lemma kind_low f i n : FI f -> nth_error (FrontFacts.names f) i = Some n -> lowish n -> sy_kind (get_sym f i) = KNonTerm.
Proof.
  intros F Hn L. apply names_nth in Hn as (s & Hs & En). rewrite (get_sym_nth _ _ _ Hs). destruct (fi_syms f F _ _ Hs) as [K _]. destruct (sy_kind s) as [| |ms]; auto; exfalso; cbn in K; rewrite En in K.
  - destruct K as [->|K]; [|now apply (upper_not_lowish n)]. destruct (fi_head f F) as [r E]. assert (H0 : nth_error (FrontFacts.names f) 0 = Some n) by (apply names_nth; eauto). rewrite E in H0. injection H0 as <-. now apply lowish_dollar in L.
  - destruct K as [[K|K] _]; [now apply (upper_not_lowish n)|]. subst n. rewrite K in L. now apply lowish_empty in L.
Qed.
Lemma kind_anon f i : FI f -> nth_error (FrontFacts.names f) i = Some "" -> exists ms, sy_kind (get_sym f i) = KMulti ms.
Proof.
  intros F Hn. apply names_nth in Hn as (s & Hs & En). rewrite (get_sym_nth _ _ _ Hs). destruct (fi_syms f F _ _ Hs) as [K _]. destruct (sy_kind s) as [| |ms]; eauto; exfalso; cbn in K; rewrite En in K.
  - destruct K as [->|K]; [|discriminate]. destruct (fi_head f F) as [r E]. assert (H0 : nth_error (FrontFacts.names f) 0 = Some "") by (apply names_nth; eauto). rewrite E in H0. discriminate.
  - now apply lowish_empty in K.
Qed.
Lemma new_kind f n t i f' j : t <> NMulti -> symbol_new f n t = GOk (i, f') -> j < List.length (f_syms f) -> sy_kind (get_sym f' j) = sy_kind (get_sym f j).
Proof.
  intros Ht H Hj. unfold symbol_new in H. destruct (if (n =? "")%string then None else _) as [x|].
  - assert (E : f' = set_syms f (upd (f_syms f) x sym_incr_use)) by (destruct t; try congruence; now injection H as <- <-). subst f'. unfold get_sym. cbn [f_syms set_syms].
    destruct (Nat.eq_dec x j) as [->|Hne]; [rewrite nth_upd_same by auto; reflexivity|now rewrite nth_upd_other].
  - injection H as <- <-. unfold get_sym. cbn [f_syms set_syms]. now rewrite app_nth1.
Qed.
Lemma new_ext f n t i f' : symbol_new f n t = GOk (i, f') -> ext f f'.
Proof.
  unfold symbol_new. destruct (if (n =? "")%string then None else _) as [x|]; intros H.
  - assert (E1 : ext f (set_syms f (upd (f_syms f) x sym_incr_use))) by now apply ext_upd.
    destruct t; try (injection H as <- <-; exact E1). destruct (sy_kind (get_sym f x)); try discriminate; injection H as <- <-; auto.
    eapply ext_trans; [exact E1|]. now apply (ext_upd (set_syms f (upd (f_syms f) x sym_incr_use))).
  - injection H as <- <-. eexists. unfold FrontFacts.names. cbn. rewrite map_app. reflexivity.
Qed.
Lemma np_terms e ids ss f : gfold (fun '(ss, f) tok => if is_terminal_ident tok then '(s, f') <-! symbol_new f tok NTerm ; GOk (ss ++ [s], f') else GErr e) ids (ss, f) <> GPanic.
Proof.
  apply np_gfold_easy. intros [s0 f0] tok. destruct (is_terminal_ident tok); [|discriminate]. apply np_bind; [now apply np_new|]. intros [s f'] _. discriminate.
Qed.

Lemma np_elem f toks o al : FI f -> toks <> [] -> rhs_elem_sym f (toks, o, al) <> GPanic.
Proof.
  intros F Ht. unfold rhs_elem_sym. destruct toks as [|tok [|tok2 toks]]; [congruence| |].
  - assert (Hk : forall t, (if is_terminal_ident tok then GOk NTerm else if is_nonterminal_ident tok then GOk NNonTerm else GErr EBadIdent) = GOk t -> t <> NMulti).
    { intros t. destruct (is_terminal_ident tok); [injection 1 as <-; discriminate|]. destruct (is_nonterminal_ident tok); [injection 1 as <-; discriminate|discriminate]. }
    apply np_bind; [destruct (is_terminal_ident tok); [discriminate|]; destruct (is_nonterminal_ident tok); discriminate|]. intros t E. specialize (Hk t E).
    destruct o; (apply np_bind; [now apply np_new|]; intros [s f1] _).
    + destruct (find _ _) as [[? ?]|]; [discriminate|]. apply np_bind; [now apply np_new|]. intros [? ?] _. discriminate.
    + discriminate.
  - apply np_bind; [apply np_multi; auto|]. intros [mt f1] E1. destruct (symbol_new_spec f "" NMulti mt f1 F (or_intror eq_refl) E1) as (F1 & _ & _ & N1 & _).
    apply np_bind; [apply np_terms|]. intros [ss f2] E2. destruct (terms_fold _ _ _ _ _ _ F1 (Forall_nil _) E2) as (F2 & _ & X2 & _).
    destruct (kind_anon f2 mt F2) as [ms ->]; [eapply ext_nth; eauto|]. discriminate.
Qed.

Lemma np_decl fuel f d : FI f -> (forall lhs rhs c p toks o al, d = DRule lhs rhs c p -> In (toks, o, al) rhs -> toks <> []) -> parse_one_decl fuel f d <> GPanic.
Proof.
  intros F Hd. assert (HC : forall n f syms x, fallback_check n f syms x <> GPanic).
  { induction n as [|n IH]; intros f0 syms x; cbn [fallback_check]; [discriminate|]. destruct (sy_fb _); [|discriminate]. destruct (smem _ _); [discriminate|auto]. }
  destruct d; cbn [parse_one_decl]; try discriminate; try (match goal with |- (if ?b then _ else _) <> _ => destruct b; discriminate end).
  - apply np_bind.
    + destruct (is_terminal_ident id); [discriminate|]. destruct (is_nonterminal_ident id); [|discriminate]. destruct (0 <? nattrs); discriminate.
    + intros k E. apply np_bind; [|intros [s f1] _; destruct (opt_is_some _); discriminate]. apply np_new. destruct (is_terminal_ident id); [injection E as <-; discriminate|]. destruct (is_nonterminal_ident id); [|discriminate].
      destruct (0 <? nattrs); [discriminate|injection E as <-; discriminate].
  - apply np_gfold_easy. intros f0 tok. destruct (is_terminal_ident tok); [|discriminate]. apply np_bind; [now apply np_new|]. intros [s f1] _. destruct (opt_is_some _); discriminate.
  - destruct (opt_is_some _); [discriminate|]. destruct (is_nonterminal_ident id); [|discriminate]. apply np_bind; [now apply np_new|]. intros [s f1] _. discriminate.
  - apply np_bind; [apply np_terms|]. intros [syms f1] _. destruct (is_terminal_ident fb); [|discriminate]. apply np_bind; [now apply np_new|]. intros [fbs f2] _.
    apply np_bind; [apply HC|]. intros _ _. apply np_gfold_easy. intros f0 s. destruct (opt_is_some _); discriminate.
  - destruct (opt_is_some _); [discriminate|]. destruct (is_terminal_ident id); [|discriminate]. apply np_bind; [now apply np_new|]. intros [s f1] _. discriminate.
  - destruct (is_terminal_ident tk) eqn:U; [|discriminate]. apply np_bind; [apply np_multi; auto|]. intros [c f1] E.
    destruct (symbol_new_spec f tk NMulti c f1 F (or_introl U) E) as (F1 & _ & _ & N1 & K1).
    apply (np_gfold _ (fun f0 => c < List.length (f_syms f0) /\ exists ms, sy_kind (get_sym f0 c) = KMulti ms)).
    + split; auto. apply names_nth in N1 as (s & Hs & _). apply nth_error_Some. congruence.
    + intros f0 id _ [Hc (ms & Hk)]. destruct (is_terminal_ident id); [|split; discriminate]. split.
      * apply np_bind; [now apply np_new|]. intros [s f'] E'. rewrite (new_kind _ _ _ _ _ c term_multi E' Hc), Hk. discriminate.
      * intros s' H. apply gbind_ok in H as ([s f'] & E' & H). pose proof (new_kind _ _ _ _ _ c term_multi E' Hc) as Ek. rewrite Ek, Hk in H. injection H as <-.
        assert (Lf : c < List.length (f_syms f')).
        { destruct (new_ext _ _ _ _ _ E') as [x Ex]. apply (f_equal (@List.length _)) in Ex. unfold FrontFacts.names in Ex. rewrite app_length, !map_length in Ex. lia. }
        cbn [f_syms set_syms]. rewrite upd_length. split; auto. exists (ms ++ [s]). unfold get_sym. cbn [f_syms set_syms]. now rewrite nth_upd_same.
  - destruct (is_nonterminal_ident lhs) eqn:L; [|discriminate]. apply np_bind; [now apply np_new|]. intros [l f1] E1.
    destruct (symbol_new_spec f lhs NNonTerm l f1 F L E1) as (F1 & _ & _ & N1 & _).
    apply np_bind.
    { apply (np_gfold _ (fun st => FI (snd st))); [exact F1|]. intros [r f0] e He Hf. cbn [snd] in Hf. destruct e as [[toks o] al]. split.
      - apply np_bind; [apply np_elem; eauto|]. intros [x f'] _. discriminate.
      - intros [r' f'] H. apply gbind_ok in H as ([x f2] & H2 & H). injection H as <- <-. destruct x as [x y]. cbn [snd]. now apply (rhs_elem_spec _ _ _ _ _ Hf H2). }
    intros [r f2] E2. destruct (rhs_fold _ _ _ _ _ F1 (Forall_nil _) E2) as (F2 & X2 & _). apply np_bind.
    { destruct prec as [id|]; [|discriminate]. destruct (is_terminal_ident id); [|discriminate]. apply np_bind; [now apply np_new|]. intros [s f'] _. discriminate. }
    intros [ps f3] E3. assert (H3 : FI f3 /\ ext f2 f3).
    { destruct prec as [id|]; [|injection E3 as <- <-; split; auto; apply ext_refl]. destruct (is_terminal_ident id) eqn:U; [|discriminate].
      apply gbind_ok in E3 as ([s f4] & Hn4 & Hp). injection Hp as <- <-. destruct (terminal_new _ _ _ _ F2 U Hn4) as (F4 & _ & E4 & T4). auto. }
    destruct H3 as [F3 X3]. unfold create_rule. rewrite (kind_low f3 l lhs F3); [discriminate| |now left]. eapply ext_nth; eauto. eapply ext_nth; eauto.
Qed.

Lemma np_front fuel ds : elems_named ds -> new_from_decls fuel ds <> GPanic.
Proof.
  intros H. unfold new_from_decls. apply np_bind.
  - apply (np_gfold _ FI); [apply init_FI|]. intros f d Hd F. split; [|intros; eapply parse_one_decl_FI; eauto]. apply np_decl; auto. intros lhs rhs c p toks o al -> Hi. eapply H; eauto.
  - intros f _. apply np_bind; [now apply np_new|]. intros [? f1] _. destruct (f_rules f1); discriminate.
Qed.

Lemma type_kind f i x j : sy_kind (get_sym (set_syms f (upd (f_syms f) i (sym_set_type x))) j) = sy_kind (get_sym f j).
Proof.
  unfold get_sym. cbn [f_syms set_syms]. destruct (Nat.eq_dec i j) as [->|Hn]; [|now rewrite nth_upd_other].
  destruct (Nat.lt_ge_cases j (List.length (f_syms f))); [rewrite nth_upd_same by auto; reflexivity|]. rewrite !nth_overflow; auto. now rewrite upd_length.
Qed.
Lemma np_prepare ord f : hash_order ord -> Decls f -> prepare ord f <> GPanic.
Proof.
  intros Ho D. unfold prepare. set (f1 := extra_token_type _ _ _). apply np_bind; [|discriminate]. destruct (extra_token_shape f (ssort (symbol_less f) (seq 0 (List.length (f_syms f)))) (S (match rposition is_kterm (map (fun id => sy_kind (get_sym f id)) (ssort (symbol_less f) (seq 0 (List.length (f_syms f))))) with Some i => i | None => 0 end))) as [Sh _]. fold f1 in Sh.
  assert (HK : forall r l, In (r, l) (ord (f_opt f1)) -> sy_kind (get_sym f1 l) = KNonTerm).
  { intros r l Hin. apply (Permutation_in _ (Ho _)) in Hin. pose proof Sh as (_ & _ & _ & _ & S5). rewrite S5 in Hin. apply In_nth_error in Hin as [k Hk].
    destruct (dc_f0 f D) as (f0 & F & Ef). assert (Hk' : nth_error (f_opt f0) k = Some (r, l)) by (rewrite Ef in Hk; exact Hk).
    destruct (fi_opt f0 F _ _ _ Hk') as [_ Hn]. pose proof (kind_low f0 l _ F Hn (or_intror (ex_intro _ k eq_refl))) as K0. apply names_nth in Hn as (s & Hs & _). rewrite (get_sym_nth _ _ _ Hs) in K0.
    assert (Hs' : nth_error (f_syms f) l = Some s). { rewrite Ef. cbn. rewrite nth_error_app1; auto. apply nth_error_Some. congruence. }
    destruct (shape_nth f f1 l s Sh Hs') as (s2 & H2 & _ & A2 & _). rewrite (get_sym_nth _ _ _ H2). congruence. }
  unfold optional_rules. apply (np_gfold _ (fun f' => forall r l, In (r, l) (ord (f_opt f1)) -> sy_kind (get_sym f' l) = KNonTerm)); [exact HK|].
  intros f' [sr sl] Hin Hf. set (f2 := set_syms f' _). assert (K2 : forall j, sy_kind (get_sym f2 j) = sy_kind (get_sym f' j)) by (intros; apply type_kind).
  unfold create_rule. rewrite K2, (Hf _ _ Hin). cbn [gbind]. change (get_sym (set_rules f2 ?r) sl) with (get_sym f2 sl). rewrite K2, (Hf _ _ Hin). split; [discriminate|].
  intros s' E. injection E as <-. intros r l Hl. change (sy_kind (get_sym f2 l) = KNonTerm). rewrite K2. eapply Hf; eauto.
Qed.

(** ** The back end *)
Lemma np_normalize g : normalize_rules g <> GPanic.
Proof.
  unfold normalize_rules. apply np_bind; [|discriminate]. apply np_gfold_easy. intros acc r. apply np_bind; [|discriminate]. unfold normalize_rule. destruct (r_code r); try discriminate. destruct (has_type _ _); [|discriminate].
  destruct (_ && _); discriminate.
Qed.
Lemma np_lambda g : forall n lam, lambda_loop n g lam <> GPanic.
Proof. induction n as [|n IH]; intros lam; cbn [lambda_loop]; [discriminate|]. destruct (fold_left _ _ _) as [l b]. destruct b; auto. discriminate. Qed.
Lemma np_firsts g lam : forall n fs, first_loop n g lam fs <> GPanic.
Proof. induction n as [|n IH]; intros fs; cbn [first_loop]; [discriminate|]. destruct (fold_left _ _ _) as [l b]. destruct b; auto. discriminate. Qed.
Lemma np_first_sets n g : find_first_sets n g <> GPanic.
Proof. unfold find_first_sets. apply np_bind; [apply np_lambda|]. intros lam _. apply np_bind; [apply np_firsts|]. discriminate. Qed.
Lemma np_closure g fi : forall n i cur cs, closure_loop n g fi i cur cs <> GPanic.
Proof.
  induction n as [|n IH]; intros i cur cs; cbn [closure_loop]; [discriminate|]. destruct (nth_error cur i); [|discriminate]. destruct (nth_error _ _) as [[sp al]|]; auto. destruct (sy_kind (gsym g sp)); auto.
  destruct (rules_of g sp); [destruct (sp =? g_error g); auto; discriminate|]. destruct (fold_left _ _ _). auto.
Qed.
Lemma np_shifts g get : (forall cur p, get cur p <> GPanic) -> forall l aps p, build_shifts_loop g get l aps p <> GPanic.
Proof.
  intros H. induction l as [|c l IH]; intros aps p; cbn [build_shifts_loop]; [discriminate|]. destruct (c_complete _); auto. destruct (shift_sym _ _); auto. destruct (shift_basis _ _ _ _ _). apply np_bind; auto. intros [ns p'] _. auto.
Qed.
Lemma np_get g fi : forall n cur p, get_state n g fi cur p <> GPanic.
Proof.
  induction n as [|n IH]; intros cur p; cbn [get_state]; [discriminate|]. destruct (state_find _ _); [discriminate|]. apply np_bind; [apply np_closure|]. intros [configs cs] _. cbv zeta.
  apply np_bind; [now apply np_shifts|]. intros [aps p2] _. discriminate.
Qed.
Lemma np_states n g fi : find_states n g fi <> GPanic.
Proof. unfold find_states. destruct (existsb _ _); [discriminate|]. destruct (start_basis g). apply np_bind; [apply np_get|]. intros [? ?] _. discriminate. Qed.
Lemma np_follow all : forall n cs, follow_loop n all cs <> GPanic.
Proof. induction n as [|n IH]; intros cs; cbn [follow_loop]; [discriminate|]. destruct (fold_left _ _ _) as [l b]. destruct b; auto. discriminate. Qed.
Lemma np_follows n p : find_follow_sets n p <> GPanic.
Proof. unfold find_follow_sets. apply np_bind; [apply np_follow|]. discriminate. Qed.
Lemma np_differs g acts d : forall n la, fallback_differs n g acts d la <> GPanic.
Proof.
  induction n as [|n IH]; intros la; cbn [fallback_differs]; [discriminate|]. destruct (sy_fb _); [|discriminate]. destruct (find _ _); auto. destruct (detail_equal _ _); auto. discriminate.
Qed.
Lemma np_compress n g p : compress_tables n g p <> GPanic.
Proof.
  unfold compress_tables. apply np_bind; [|discriminate]. apply np_gfold_easy. intros acc s. apply np_bind; [|discriminate]. unfold compress_state. apply np_bind.
  - unfold ignored_actions. destruct (f_has_fb _); [|discriminate]. apply np_gfold_easy. intros ign a. apply np_bind; [apply np_differs|]. discriminate.
  - intros ign _. cbv zeta. destruct (b_rule _); [|discriminate]. destruct (b_wild _); discriminate.
Qed.

(** *** Data types *)
Lemma np_types g : (forall i ms, kind_at g i = Some (KMulti ms) -> exists c l, ms = c :: l /\ c <> i) -> type_symbols g <> GPanic.
Proof.
  intros HM. unfold type_symbols. apply (np_gfold _ (fun st => map sy_kind (snd (fst st)) = map sy_kind (g_syms g))); [reflexivity|].
  intros [[m syms] dts] i Hi Hk. cbn [fst snd] in Hk. apply in_seq in Hi. unfold type_symbol.
  assert (HKi : sy_kind (nth i syms dummy_sym) = sy_kind (gsym g i)).
  { unfold gsym. apply (f_equal (fun l => nth i l KTerm)) in Hk. change KTerm with (sy_kind dummy_sym) in Hk at 1 2. now rewrite !map_nth in Hk. }
  assert (HKu : forall dt, map sy_kind (upd syms i (sym_set_type dt)) = map sy_kind syms).
  { intros dt. clear. revert i. induction syms as [|s l IH]; intros [|i]; cbn; auto. f_equal. apply IH. }
  destruct (opt_eqb _ _ _); [split; [discriminate|]; intros s' E; injection E as <-; exact Hk|].
  rewrite HKi. destruct (nth_error (g_syms g) i) as [s|] eqn:Es; [|apply nth_error_None in Es; lia].
  assert (HKs : kind_at g i = Some (sy_kind (gsym g i))) by (unfold kind_at, gsym; rewrite Es, (nth_error_nth _ _ _ Es); reflexivity).
  assert (HE : exists dt, match sy_kind (gsym g i) with KMulti [] => GPanic | KMulti (c :: _) => if c =? i then GPanic else GOk (sy_type (nth c syms dummy_sym)) | _ => GOk (sy_type (nth i syms dummy_sym)) end = GOk dt).
  { destruct (sy_kind (gsym g i)) as [| |ms]; eauto. destruct (HM i ms HKs) as (c & l & -> & Hc). apply Nat.eqb_neq in Hc. rewrite Hc. eauto. }
  destruct HE as [dt ->]. cbn [gbind]. set (dt' := match dt with Some t => Some t | None => _ end).
  split; [destruct dt' as [t|]; [destruct (type_find m t)|]; discriminate|]. intros s' E.
  assert (Es' : snd (fst s') = upd syms i (sym_set_type dt')) by (destruct dt' as [t|]; [destruct (type_find m t)|]; injection E as <-; reflexivity). rewrite Es', HKu. exact Hk.
Qed.

(** *** Packing *)
Lemma counts_le g ns nr num st :
  k_tkn (state_counts g ns nr st) <= List.length (action_set g ns nr num st true) /\ k_nt (state_counts g ns nr st) <= List.length (action_set g ns nr num st false).
Proof.
  unfold state_counts, action_set. generalize (s_actions st) as l. set (stp := fun (k : counts) (a : action) => _).
  assert (HG : forall l k, k_tkn (fold_left stp l k) <= k_tkn k + List.length (flat_map (fun a => if keep g true (a_la a) then match compute_action ns nr num (a_det a) with Some x => [(a_la a, x)] | None => [] end else []) l) /\
     k_nt (fold_left stp l k) <= k_nt k + List.length (flat_map (fun a => if keep g false (a_la a) then match compute_action ns nr num (a_det a) with Some x => [(a_la a, x)] | None => [] end else []) l)).
  { induction l as [|a l IH]; intros k; cbn [fold_left flat_map]; [cbn; lia|]. destruct (IH (stp k a)) as [H1 H2]. rewrite !app_length.
    assert (HS : k_tkn (stp k a) <= k_tkn k + List.length (if keep g true (a_la a) then match compute_action ns nr num (a_det a) with Some x => [(a_la a, x)] | None => [] end else []) /\
       k_nt (stp k a) <= k_nt k + List.length (if keep g false (a_la a) then match compute_action ns nr num (a_det a) with Some x => [(a_la a, x)] | None => [] end else [])).
    { unfold stp. rewrite !compute_emits. destruct (emits (a_det a)); [|split; lia]. unfold keep. destruct (Nat.ltb_spec (a_la a) (g_nterm g)); cbn [negb andb k_tkn k_nt List.length]; [lia|].
      destruct (Nat.ltb_spec (a_la a) (g_dflt g)); cbn [k_tkn k_nt]; [|split; lia]. destruct (Nat.eqb_spec (a_la a) (g_dflt g)); cbn; lia. }
    lia. }
  intros l. apply (HG l (mkCounts 0 0 (ns + nr))).
Qed.
Lemma counts_some g ns nr st la d : In (mkAct la d) (s_actions st) -> emits d = true ->
  (la < g_nterm g -> k_tkn (state_counts g ns nr st) <> 0) /\ (g_nterm g <= la < g_dflt g -> k_nt (state_counts g ns nr st) <> 0).
Proof.
  unfold state_counts. generalize (s_actions st) as l. set (stp := fun (k : counts) (a : action) => _).
  assert (HM : forall l k, k_tkn k <= k_tkn (fold_left stp l k) /\ k_nt k <= k_nt (fold_left stp l k)).
  { induction l as [|a l IH]; intros k; cbn [fold_left]; [lia|]. destruct (IH (stp k a)) as [H1 H2]. assert (k_tkn k <= k_tkn (stp k a) /\ k_nt k <= k_nt (stp k a)); [|lia].
    unfold stp. destruct (compute_action _ _ _ _); [|lia]. destruct (_ <? _); [cbn; lia|]. destruct (_ <? _); cbn; lia. }
  intros l Hin He. generalize (mkCounts 0 0 (ns + nr)) as k. revert Hin. induction l as [|a l IH]; intros Hin k; [destruct Hin|]. cbn [fold_left]. destruct Hin as [->|Hin]; [|now apply IH].
  destruct (HM l (stp k (mkAct la d))) as [M1 M2]. 
  assert (ES : stp k (mkAct la d) = if la <? g_nterm g then mkCounts (S (k_tkn k)) (k_nt k) (k_dflt k) else if la <? g_dflt g then mkCounts (k_tkn k) (S (k_nt k)) (k_dflt k) else mkCounts (k_tkn k) (k_nt k) (code ns nr (fun x => x) d)).
  { unfold stp. cbn [a_la a_det]. now rewrite compute_emits, He. }
  rewrite ES in M1 at 1. rewrite ES in M2 at 1. split; intros Hl.
  - apply Nat.ltb_lt in Hl. rewrite Hl in M1. cbn in M1. lia.
  - destruct (Nat.ltb_spec la (g_nterm g)); [lia|]. destruct (Nat.ltb_spec la (g_dflt g)); [|lia]. cbn in M2. lia.
Qed.

Lemma np_insert tab set : set <> [] -> insert_action_set tab set <> GPanic.
Proof. unfold insert_action_set. destruct set as [|[a b] l]; [congruence|discriminate]. Qed.
Lemma np_pack g p : pack_states g p <> GPanic.
Proof.
  unfold pack_states, pack_all. apply (np_gfold _ (fun _ => True)); auto. intros k [[s w] n] Hin _. split; auto. unfold pack_one. destruct (Nat.eqb_spec n 0); [discriminate|]. apply np_bind.
  - apply np_insert. apply ax_sets_in in Hin as [Hs Hn]. apply state_order_in in Hs. rewrite (all_counts_nth g p s Hs) in Hn.
    destruct (counts_le g (List.length (p_states p)) (List.length (g_rules g)) (state_num g p) (pstate p s)) as [C1 C2]. change (nth s (p_states p) dummy_state) with (pstate p s).
    intros E. destruct w; rewrite E in *; cbn in *; lia.
  - intros [ofs tab] _. destruct w; discriminate.
Qed.
Definition given (k : packing) (s : nat) (w : bool) : Prop := nth s (if w then k_tofs k else k_nofs k) None <> None.
Lemma pack_given g ns nr num sts : forall ax k k' s w n, gfold (pack_one g ns nr num sts) ax k = GOk k' -> List.length (k_tofs k) = ns -> List.length (k_nofs k) = ns -> s < ns ->
  given k s w \/ In (s, w, n) ax /\ n <> 0 -> given k' s w.
Proof.
  induction ax as [|[[s1 w1] n1] ax IH]; intros k k' s w n H L1 L2 Hs HG; cbn [gfold] in H.
  - injection H as <-. destruct HG as [HG|[[] _]]. exact HG.
  - apply gbind_ok in H as (k1 & H1 & H). unfold pack_one in H1. destruct (Nat.eqb_spec n1 0) as [->|Hn].
    + injection H1 as <-. apply (IH k k' s w n); auto. destruct HG as [HG|[[E|HG] Hn]]; auto. congruence.
    + apply gbind_ok in H1 as ([ofs tab] & Hi & H1).
      assert (HU : forall l : list (option Z), List.length l = ns -> nth s l None <> None \/ s = s1 -> nth s (upd l s1 (fun _ => Some ofs)) None <> None).
      { intros l Ll Hl. destruct (Nat.eq_dec s1 s) as [->|Hne]; [rewrite nth_upd_same by lia; discriminate|]. rewrite nth_upd_other by auto. destruct Hl; [auto|congruence]. }
      apply (IH k1 k' s w n); auto.
      * destruct w1; injection H1 as <-; cbn; rewrite ?upd_length; auto.
      * destruct w1; injection H1 as <-; cbn; rewrite ?upd_length; auto.
      * unfold given in *. destruct HG as [HG|[[E|HG] Hn']]; [left|left|right; auto].
        -- destruct w1; injection H1 as <-; destruct w; cbn in *; auto.
        -- injection E as -> -> ->. destruct w; injection H1 as <-; cbn in *; auto.
Qed.
Lemma np_offsets order ofs mn s : In s order -> nth s ofs None <> None -> ofst_table order ofs mn <> GPanic.
Proof.
  intros Hi Ho. unfold ofst_table. destruct (rposition _ _) as [n|] eqn:E; [discriminate|]. exfalso.
  assert (HN : forall l : list (option Z), rposition opt_is_some l = None -> forall x, In x l -> opt_is_some x = false) by apply rposition_none.
  assert (Hx := HN _ E (nth s ofs None) (in_map (fun s => nth s ofs None) _ _ Hi)). destruct (nth s ofs None); [discriminate|congruence].
Qed.

(** *** Which actions compression leaves alone *)
Lemma compress_keeps fuel g st st' la d : compress_state fuel g st = GOk st' -> In (mkAct la d) (s_actions st) -> emits d = true ->
  (forall r, d = Reduce r -> lhs_start g r = true) -> In (mkAct la d) (s_actions st').
Proof.
  unfold compress_state. intros H Hin He Hd. apply gbind_ok in H as (ign & _ & H). cbv zeta in H. destruct (b_rule _) as [r|] eqn:Eb; [|now injection H as <-].
  destruct (b_wild _); [now injection H as <-|]. injection H as <-. cbn. apply ssort_in. apply make_default_in; auto. left. split; auto. intros [Em _].
  apply find_best_some in Eb as [Eb|[Eb _]]; [discriminate|]. rewrite (Hd r Em) in Eb. discriminate.
Qed.

Lemma np_generate g p : (forall i ms, kind_at g i = Some (KMulti ms) -> exists c l, ms = c :: l /\ c <> i) ->
  (exists s la d, s < List.length (p_states p) /\ In (mkAct la d) (s_actions (pstate p s)) /\ emits d = true /\ la < g_nterm g) ->
  (exists s la d, s < List.length (p_states p) /\ In (mkAct la d) (s_actions (pstate p s)) /\ emits d = true /\ g_nterm g <= la < g_dflt g) ->
  generate_source g p <> GPanic.
Proof.
  intros HM (s1 & la1 & d1 & L1 & I1 & E1 & T1) (s2 & la2 & d2 & L2 & I2 & E2 & T2). unfold generate_source. apply np_bind; [destruct (g_wild g) as [w|]; [destruct (has_type g w)|]; discriminate|]. intros w _.
  apply np_bind; [now apply np_types|]. intros [[m syms] dts] _. cbv zeta. apply np_bind; [match goal with |- (if ?c then _ else _) <> _ => destruct c; discriminate end|]. intros _ _.
  apply np_bind; [match goal with |- (if ?c then _ else _) <> _ => destruct c; discriminate end|]. intros _ _. apply np_bind; [match goal with |- (if ?c then _ else _) <> _ => destruct c; discriminate end|]. intros _ _.
  apply np_bind; [apply np_pack|]. intros k Hk.
  assert (HG : forall s b la d, s < List.length (p_states p) -> In (mkAct la d) (s_actions (pstate p s)) -> emits d = true -> (if (b : bool) then la < g_nterm g else g_nterm g <= la < g_dflt g) -> given k s b).
  { intros s b la d Ls Hin He Hl. unfold pack_states, pack_all in Hk. eapply (pack_given _ _ _ _ _ _ _ _ s b _ Hk); auto; cbn [k_tofs k_nofs]; try apply repeat_length.
    right. split; [apply ax_sets_in; split; [now apply state_order_in|reflexivity]|]. rewrite all_counts_nth by auto.
    destruct (counts_some g (List.length (p_states p)) (List.length (g_rules g)) _ _ _ Hin He) as [C1 C2]. destruct b; auto. }
  apply np_bind; [apply (np_offsets _ _ _ s1); [now apply state_order_in|exact (HG s1 true la1 d1 L1 I1 E1 T1)]|]. intros so _.
  apply np_bind; [apply (np_offsets _ _ _ s2); [now apply state_order_in|exact (HG s2 false la2 d2 L2 I2 E2 T2)]|]. intros ro _.
  apply np_bind.
  { unfold fallback_table. apply np_gfold_easy. intros acc i. destruct (sy_fb _); [|discriminate]. match goal with |- (if ?c then _ else _) <> _ => destruct c; discriminate end. }
  intros fb _. apply np_bind; [|discriminate]. unfold gmapM. apply np_gfold_easy. intros acc r. apply np_bind; [|discriminate]. unfold translate_code.
  apply np_bind; [apply np_gfold_easy; intros _ q; destruct (sy_kind _); try discriminate; destruct (snd q); [|discriminate]; match goal with |- (if ?c then _ else _) <> _ => destruct c; discriminate end|]. intros _ _.
  apply np_bind; [apply np_gfold_easy; intros _ q; match goal with |- (if ?c then _ else _) <> _ => destruct c; discriminate end|]. discriminate.
Qed.

(** Behind a panic of the macro is a shift that competes with another and leads back to its own
    state. *)
Theorem macro_panic_reason fuel ord ds : hash_order ord -> elems_named ds -> classes_begin ds -> build fuel ord ds = GPanic ->
  exists g, written ds g /\ looping_shift g.
Proof.
  intros Ho HE HC H. unfold build in H. apply gbind_panic in H as [H|(f & Hf & H)]; [now apply np_front in H|]. pose proof (new_from_decls_spec _ _ _ Hf) as D. unfold build_fe in H.
  apply gbind_panic in H as [H|(g0 & H0 & H)]; [now apply np_prepare in H|]. apply gbind_panic in H as [H|(g & H1 & H)]; [now apply np_normalize in H|].
  pose proof (prepared_wf _ _ _ _ D Ho H0 H1) as W. destruct (front_declared _ _ _ _ _ _ Ho Hf H0 H1) as (opts & DE).
  apply gbind_panic in H as [H|(fi & Hfi & H)]; [now apply np_first_sets in H|]. pose proof (find_first_sets_exact _ g fi W Hfi) as F.
  apply gbind_panic in H as [H|(p1 & Hp1 & H)]; [now apply np_states in H|]. apply gbind_panic in H as [H|(p2 & Hp2 & H)]; [now apply np_follows in H|]. pose proof (aut_main g fi W F p1 p2 fuel fuel Hp1 Hp2) as A.
  apply gbind_panic in H as [H|([p3 nc] & H3 & H)].
  { exists g. split; [split; [|now exists opts]; exists ord; split; auto; now exists fuel, f, g0|]. now apply (actions_panic g W p2 A). }
  exfalso. destruct (Nat.ltb_spec 0 nc) as [|Hnc]; [discriminate|]. assert (nc = 0) by lia. subst nc. revert H. change (gbind (compress_tables fuel g p3) (fun p4 => t <-! generate_source g p4 ; GOk (mkBuilt g fi p2 p3 p4 t)) <> GPanic).
  destruct (find_actions_spec g W p2 A p3 H3) as (_ & L3 & S3 & R3). apply np_bind; [apply np_compress|]. intros p4 H4. apply np_bind; [|discriminate].
  destruct (compress_tables_spec _ _ _ _ H4) as (_ & L4 & S4). apply np_generate.
  - intros i ms Hk. unfold kind_at in Hk. destruct (nth_error (g_syms g) i) as [s|] eqn:Es; [|discriminate]. injection Hk as Hk.
    destruct (string_dec (sy_name s) "") as [En|En].
    + destruct (de_anon _ _ _ DE i s Es En) as (_ & _ & _ & d & [[toks o] al] & _ & _ & HX). cbn in HX.
      destruct toks as [|t1 [|t2 toks]]; [destruct HX| |].
      * exfalso. destruct HX as [HU HX]. assert (HN : exists n, at_name g i n /\ n <> "").
        { destruct o; [|exists t1; split; auto; intros ->; destruct HU as [HU|HU]; discriminate]. destruct HX as (Y & HY & _). destruct (de_opts _ _ _ DE Y i HY) as (_ & k & Hk'). exists (optional_name k). split; auto. discriminate. }
        destruct HN as (n & (s' & Es' & En') & Hn). congruence.
      * destruct HX as (HU & _ & ms' & Hk' & HF). unfold kind_at in Hk'. rewrite Es in Hk'. injection Hk' as Hk'. rewrite Hk in Hk'. injection Hk' as <-.
        inversion HF as [|m t0 ms0 l0 Hm HF0]; subst. exists m, ms0. split; auto. intros ->. destruct Hm as (s' & Es' & En'). inversion HU; subst. assert (sy_name s = "") by auto. rewrite Es in Es'. injection Es' as <-. rewrite En in *. discriminate.
    + destruct (de_sym _ _ _ DE i s Es En) as (_ & _ & HM). rewrite Hk in HM. cbn in HM. symmetry in HM. destruct (HC _ _ HM) as (m & l & Em & Hm).
      destruct ms as [|c ms]; [discriminate|]. exists c, ms. split; auto. intros ->. apply Hm. cbn in Em. injection Em as <- _. unfold gname, gsym. now rewrite (nth_error_nth _ _ _ Es).
  - (* a reduction to the start symbol keeps its token *)
    assert (Hst : rules_of g (g_start g) <> []).
    { assert (L0 : 0 < List.length (g_rules g)).
      { destruct (de_rules _ _ _ DE) as (rs & HR & HF). rewrite HR, app_length. destruct rs as [|r0 rs]; [|cbn; lia].
        exfalso. pose proof (dc_rules f D) as HX. apply normalize_rules_spec in H1 as (_ & _ & _ & _ & _ & _ & _ & H8). cbn in H8. apply f2_len in H8. rewrite map_length in H8.
        rewrite HR in H8. cbn [app] in H8. apply prepare_spec in H0. inversion HF as [HD|]. pose proof (de_start _ _ _ DE) as (n & Hn & _).
        unfold new_from_decls in Hf. apply gbind_ok in Hf as (f0 & Hd & Hf). pose proof (decls_DI _ _ _ Hd) as DD. apply gbind_ok in Hf as ([i f1] & Hs & Hf).
        destruct (f_rules f1) eqn:Ef; [discriminate|]. injection Hf as <-. pose proof (di_rules _ _ DD) as HD'. rewrite <- HD in HD'. inversion HD' as [HD1|]. apply sym_rules in Hs. congruence. }
      destruct (R3 0 L0) as (s & la & Ls & Hin). destruct (S3 s Ls) as [SE _]. pose proof (settled_raw g p2 p3 s la _ SE Hin Logic.I) as HR. inversion HR; subst.
      match goal with H : look _ _ _ _ |- _ => apply (lalr_exact g p2 A) in H as (gamma & _ & HL); auto end. eapply lr1_start_rules; eauto. }
    destruct (rules_of g (g_start g)) as [|r rs] eqn:Er; [congruence|]. assert (Hr : In r (rules_of g (g_start g))) by (rewrite Er; now left). unfold rules_of in Hr. apply filter_In in Hr as [Hr1 Hr2]. apply in_seq in Hr1.
    destruct (R3 r ltac:(lia)) as (s & la & Ls & Hin). destruct (S3 s Ls) as [SE _]. pose proof (settled_raw g p2 p3 s la _ SE Hin Logic.I) as HR. exists s, la, (Reduce r). splits.
    + congruence.
    + eapply compress_keeps; [apply S4; congruence|exact Hin|reflexivity|]. intros r' E. injection E as <-. exact Hr2.
    + reflexivity.
    + inversion HR; subst. auto.
  - (* the accept action *)
    pose proof (au_pos g p2 A) as P0. destruct (S3 0 P0) as [SE _]. destruct (se_src _ _ _ _ SE) as (l0 & _ & HF & Hl0). assert (Ha : In (mkAct (g_start g) Accept) l0) by (apply Hl0; now constructor).
    destruct (ActFacts.forall2_in_l _ _ _ _ HF Ha) as ([la d] & Hin & HA1 & HA2). cbn in HA1, HA2. subst la. inversion HA2; subst d. exists 0, (g_start g), Accept. splits.
    + lia.
    + eapply compress_keeps; [apply S4; lia|exact Hin|reflexivity|]. discriminate.
    + reflexivity.
    + destruct (wg_start g W) as [Hk Hn]. apply (wg_nonterm g W) in Hk. lia.
    + destruct (wg_start g W) as [Hk Hn]. apply (wg_nonterm g W) in Hk. lia.
Qed.

(** The macro does not panic. *)
Theorem no_macro_panic fuel ord ds : hash_order ord -> elems_named ds -> classes_begin ds -> shifts_leave ds -> build fuel ord ds <> GPanic.
Proof. intros Ho HE HC HS H. destruct (macro_panic_reason fuel ord ds Ho HE HC H) as (g & HW & HL). exact (HS g HW HL). Qed.

(** Where every element of a right-hand side is one symbol and no class, shifts do not compete. *)
Definition lone_tokens (ds : list decl) : Prop := (forall n ms, class_of ds n <> Some ms) /\ (forall toks o al, has_elem ds (toks, o, al) -> List.length toks <= 1).
Lemma lone_leave ds : lone_tokens ds -> shifts_leave ds.
Proof.
  intros [HC HE] g [(ord & Ho & fuel & f & g0 & Hf & H0 & H1) (opts & DE)] (gamma & a & X & Y & OX & OY & _ & HD).
  pose proof (new_from_decls_spec _ _ _ Hf) as D. pose proof (prepared_wf _ _ _ _ D Ho H0 H1) as W.
  assert (HM : forall i ms, kind_at g i <> Some (KMulti ms)).
  { intros i ms Hk. unfold kind_at in Hk. destruct (nth_error (g_syms g) i) as [s|] eqn:Es; [|discriminate]. injection Hk as Hk. destruct (string_dec (sy_name s) "") as [En|En].
    - destruct (de_anon _ _ _ DE i s Es En) as (_ & _ & _ & d & [[toks o] al] & Hd & He & HX).
      assert (HL : List.length toks <= 1) by (apply (HE toks o al); exists d; auto). cbn in HX. destruct toks as [|t1 [|t2 toks]]; [destruct HX| |cbn in HL; lia].
      destruct HX as [HU HX]. assert (HN : exists n, at_name g i n /\ n <> "").
      { destruct o; [|exists t1; split; auto; intros ->; destruct HU as [HU|HU]; discriminate]. destruct HX as (Y0 & HY & _). destruct (de_opts _ _ _ DE Y0 i HY) as (_ & k & Hk'). exists (optional_name k). split; auto. discriminate. }
      destruct HN as (n & (s' & Es' & En') & Hn). congruence.
    - destruct (de_sym _ _ _ DE i s Es En) as (_ & _ & HM). rewrite Hk in HM. cbn in HM. symmetry in HM. exact (HC _ _ HM). }
  assert (HT : forall Z, offers g gamma a (MShift Z) -> Z = a).
  { intros Z H. inversion H as [r ru d Z' al _ _ _ HMm|]; subst. destruct HMm as [[<- _]|(ms & K & _)]; auto. now apply HM in K. }
  apply HT in OX as ->. apply HT in OY as ->. destruct HD as [HD|(ms & K & _)]; [congruence|]. now apply HM in K.
Qed.

(** *** The conditions are needed
    [%token_class C;  input ::= A C;], [%token_class C C A;  input ::= A C;] and
    [%token_class K A B;  %token_class L A C;  input ::= list;  list ::= K list;  list ::= L list;
    list ::= D;]. *)
From Verif Require Import Demo.
Definition empty_class_ds : list decl := [DTokenClass "C" []; rl "input" ["A"; "C"] 1].
Definition own_class_ds : list decl := [DTokenClass "C" ["C"; "A"]; rl "input" ["A"; "C"] 1].
Definition looping_ds : list decl := [DTokenClass "K" ["A"; "B"]; DTokenClass "L" ["A"; "C"]; rl "input" ["list"] 1; rl "list" ["K"; "list"] 2; rl "list" ["L"; "list"] 3; rl "list" ["D"] 4].
Theorem macro_panic_refuted :
  (elems_named empty_class_ds /\ build 300 ida empty_class_ds = GPanic) /\
  (elems_named own_class_ds /\ build 300 ida own_class_ds = GPanic) /\
  (elems_named looping_ds /\ classes_begin looping_ds /\ build 300 ida looping_ds = GPanic).
Proof.
  assert (H : forall ds, forallb (fun d => match d with DRule _ rhs _ _ => forallb (fun e => match fst (fst e) with [] => false | _ => true end) rhs | _ => true end) ds = true -> elems_named ds).
  { intros ds H lhs rhs c p toks o al H1 H2 ->. rewrite forallb_forall in H. apply H in H1. cbn in H1. rewrite forallb_forall in H1. apply H1 in H2. discriminate. }
  splits; try (apply H; reflexivity); try (vm_compute; reflexivity).
  clear H. intros n ms Hm. unfold class_of in Hm. cbn in Hm. destruct (String.eqb_spec n "K") as [->|N1]; [cbn in Hm; injection Hm as <-; exists "A", ["B"]; split; [reflexivity|discriminate]|]. destruct (String.eqb_spec n "L") as [->|N2]; [|discriminate]. injection Hm as <-. exists "A", ["C"]. split; [reflexivity|discriminate].
Qed.
