(** Declarations of precedences are read by [resolve_conflict] only (C51). *)
From Verif Require Import Base Syntax BaseFacts FrontEnd First States Actions Tables DeclMore ActFacts CleanFacts Rename RenameBack.
Open Scope string_scope. Open Scope nat_scope. Open Scope list_scope.

(** What is left when the precedences are rubbed out.  The number of uses is read for the error
    symbol only. *)
Definition es (s : symbol) : symbol :=
  mkSym (sy_name s) (sy_kind s) (sy_fb s) None (if String.eqb (sy_name s) "error" then sy_use s else 0) (sy_type s) (sy_attrs s).
Definition er (r : rule) : rule := mkRule (r_lhs r) (r_rhs r) (r_code r) None None.
Definition ef (f : fe) : fe := set_precno (set_rules (set_syms f (map es (f_syms f))) (map er (f_rules f))) 0.
Definition R (f f' : fe) : Prop := ef f = ef f'.

Lemma es_dummy : es dummy_sym = dummy_sym. Proof. reflexivity. Qed.
Lemma get_es f i : get_sym (ef f) i = es (get_sym f i).
Proof. unfold get_sym, ef. cbn. rewrite <- es_dummy at 1. apply map_nth. Qed.
Lemma R_get f f' i : R f f' -> es (get_sym f i) = es (get_sym f' i).
Proof. intros H. rewrite <- !get_es. now rewrite H. Qed.
Lemma R_kind f f' i : R f f' -> sy_kind (get_sym f' i) = sy_kind (get_sym f i).
Proof. intros H. apply (R_get _ _ i) in H. now injection H. Qed.
Lemma R_fb f f' i : R f f' -> sy_fb (get_sym f' i) = sy_fb (get_sym f i).
Proof. intros H. apply (R_get _ _ i) in H. now injection H. Qed.
Lemma R_type f f' i : R f f' -> sy_type (get_sym f' i) = sy_type (get_sym f i).
Proof. intros H. apply (R_get _ _ i) in H. now injection H. Qed.
Lemma R_syms f f' : R f f' -> map es (f_syms f) = map es (f_syms f').
Proof. intros H. exact (f_equal f_syms H). Qed.
Lemma R_len f f' : R f f' -> List.length (f_syms f') = List.length (f_syms f).
Proof. intros H. apply R_syms in H. apply (f_equal (@List.length _)) in H. rewrite !map_length in H. auto. Qed.
Lemma R_rules f f' : R f f' -> map er (f_rules f) = map er (f_rules f').
Proof. intros H. exact (f_equal f_rules H). Qed.
Lemma R_read {A} (h : fe -> A) f f' : (forall f, h (ef f) = h f) -> R f f' -> h f' = h f.
Proof. intros Hh H. rewrite <- (Hh f), <- (Hh f'). now rewrite H. Qed.
Lemma R_set (h : fe -> fe) f f' : (forall f, ef (h f) = h (ef f)) -> R f f' -> R (h f) (h f').
Proof. intros Hh H. unfold R in *. now rewrite !Hh, H. Qed.
Lemma map_upd (h : symbol -> symbol) : (forall s, es (h s) = es (h (es s))) -> forall l i, map es (upd l i h) = upd (map es l) i (fun s => es (h s)).
Proof. intros H l i. symmetry. apply upd_map. intros a. now rewrite <- H. Qed.
Lemma R_put f f' l l' : R f f' -> map es l = map es l' -> R (set_syms f l) (set_syms f' l').
Proof.
  intros H E. unfold R in *. change (ef (set_syms f l)) with (set_syms (ef f) (map es l)). change (ef (set_syms f' l')) with (set_syms (ef f') (map es l')). now rewrite H, E.
Qed.
Lemma R_upd f f' i h : (forall s, es (h s) = es (h (es s))) -> R f f' -> R (set_syms f (upd (f_syms f) i h)) (set_syms f' (upd (f_syms f') i h)).
Proof. intros Hh H. apply R_put; auto. rewrite !map_upd by auto. now rewrite (R_syms _ _ H). Qed.
Lemma es_idem s : es (es s) = es s.
Proof. unfold es. cbn. now destruct (String.eqb (sy_name s) "error"). Qed.
Ltac hes := intros ?s; unfold es; cbn; repeat destruct (String.eqb _ _); reflexivity.
Lemma incr_es s : es (sym_incr_use s) = es (sym_incr_use (es s)).
Proof. unfold es. cbn. now destruct (String.eqb (sy_name s) "error"). Qed.
Lemma position_es (p : ident -> bool) l l' : map es l = map es l' -> position (fun s => p (sy_name s)) l = position (fun s => p (sy_name s)) l'.
Proof.
  intros H. assert (HP : forall l, position (fun s => p (sy_name s)) (map es l) = position (fun s => p (sy_name s)) l) by (clear; induction l as [|s l IH]; cbn; auto; now rewrite IH). now rewrite <- (HP l), <- (HP l'), H.
Qed.

Definition pR {A} (x y : A * fe) : Prop := fst x = fst y /\ R (snd x) (snd y).
Lemma new_R f f' n t : R f f' -> sim pR (symbol_new f n t) (symbol_new f' n t).
Proof.
  intros H. unfold symbol_new. rewrite (position_es (fun x => String.eqb x n) (f_syms f') (f_syms f)) by (symmetry; now apply R_syms).
  assert (HA : sim pR (GOk (List.length (f_syms f), set_syms f (f_syms f ++ [mkSym n (kind_of_nst t) None None 1 None 0]))) (GOk (List.length (f_syms f'), set_syms f' (f_syms f' ++ [mkSym n (kind_of_nst t) None None 1 None 0])))).
  { split; cbn [fst snd]; [symmetry; now apply R_len|]. apply R_put; auto. rewrite !map_app. now rewrite (R_syms _ _ H). }
  destruct (String.eqb n ""); [exact HA|]. destruct (position _ (f_syms f)) as [i|]; [|exact HA].
  assert (HU : R (set_syms f (upd (f_syms f) i sym_incr_use)) (set_syms f' (upd (f_syms f') i sym_incr_use))) by (apply R_upd; auto; apply incr_es).
  rewrite (R_kind _ _ i H). destruct t; try (split; [reflexivity|exact HU]). destruct (sy_kind (get_sym f i)); try exact I; try (split; [reflexivity|exact HU]). split; [reflexivity|].
  refine (R_upd _ _ i (sym_set_kind (KMulti [])) _ HU). hes.
Qed.
Lemma create_R f f' l r c ps ps' : R f f' -> sim R (create_rule f l r c ps) (create_rule f' l r c ps').
Proof.
  intros H. unfold create_rule. rewrite (R_kind _ _ l H). destruct (sy_kind (get_sym f l)); try exact I. cbn [sim].
  assert (E : forall f l, ef (set_rules f l) = set_rules (ef f) (map er l)) by reflexivity. unfold R. rewrite !E, !map_app. rewrite (R_rules _ _ H). unfold R in H. rewrite H. reflexivity.
Qed.
Lemma terms_R (e : gerr) l : forall ss f f', R f f' ->
  sim pR (gfold (fun '(ss, f) tok => if is_terminal_ident tok then '(s, f1) <-! symbol_new f tok NTerm ; GOk (ss ++ [s], f1) else GErr e) l (ss, f))
         (gfold (fun '(ss, f) tok => if is_terminal_ident tok then '(s, f1) <-! symbol_new f tok NTerm ; GOk (ss ++ [s], f1) else GErr e) l (ss, f')).
Proof.
  intros ss f f' H. eapply (sim_fold eq pR); [apply forall2_same| |split; auto].
  intros a b [s1 f1] [s2 f2] -> Ha [E HF]. cbn in E, HF. subst s2. destruct (is_terminal_ident b) eqn:Et; [|reflexivity].
  eapply sim_bind; [apply new_R; eauto|]. intros [s f3] [s' f3'] [E HF']. cbn in E, HF'. subst s'. split; auto.
Qed.
Lemma elem_R f f' e : R f f' -> sim pR (rhs_elem_sym f e) (rhs_elem_sym f' e).
Proof.
  intros HF. destruct e as [[toks o] al]. unfold rhs_elem_sym. destruct toks as [|tok [|tok2 toks]].
  - exact I.
  - eapply (sim_bind eq); [apply sim_eq; reflexivity|]. intros t ? <-. pose proof (new_R f f' tok t HF) as HS. destruct o.
    + eapply sim_bind; [exact HS|]. intros [s f1] [s' f1'] [E1 H1]. cbn in E1, H1. subst s'. assert (f_opt f1' = f_opt f1) as -> by (apply (R_read f_opt); auto). destruct (find _ (f_opt f1)) as [[x y]|]; [split; auto|].
      eapply sim_bind; [apply new_R; exact H1|]. intros [z f2] [z' f2'] [E2 H2]. cbn in E2, H2. subst z'. split; auto. cbn [snd]. assert (f_opt f2' = f_opt f2) as -> by (apply (R_read f_opt); auto).
      apply (R_set (fun f => set_opt f (f_opt f2 ++ [(s, z)]))); auto.
    + eapply sim_bind; [exact HS|]. intros [s f1] [s' f1'] [E1 H1]. cbn in E1, H1. subst s'. split; auto.
  - eapply sim_bind; [apply new_R; exact HF|]. intros [mt f1] [mt' f1'] [E1 H1]. cbn in E1, H1. subst mt'.
    eapply sim_bind; [apply (terms_R ECompound (tok :: tok2 :: toks) [] f1 f1' H1)|]. intros [ss f2] [ss' f2'] [E2 H2]. cbn in E2, H2. subst ss'. rewrite (R_kind _ _ _ H2).
    destruct (sy_kind (get_sym f2 mt)); try exact I. split; [reflexivity|]. apply R_upd; auto. hes.
Qed.
Lemma check_R fuel : forall f f' syms fb, R f f' -> sim eq (fallback_check fuel f syms fb) (fallback_check fuel f' syms fb).
Proof.
  induction fuel as [|n IH]; intros f f' syms fb H; cbn; auto. rewrite (R_fb _ _ _ H). destruct (sy_fb (get_sym f fb)) as [nx|]; [|reflexivity]. destruct (smem nx syms); [reflexivity|]. now apply IH.
Qed.

(** A rule, with the sign [ps] of its precedence left open *)
Lemma rule_R f f' lhs rhs c prec : R f f' -> forall fuel, sim R (parse_one_decl fuel f (DRule lhs rhs c prec)) (parse_one_decl fuel f' (DRule lhs rhs c prec)).
Proof.
  intros HF fuel. cbn [parse_one_decl]. destruct (is_nonterminal_ident lhs); [|reflexivity].
  eapply sim_bind; [apply new_R; exact HF|]. intros [x f1] [x' f1'] [E1 H1]. cbn in E1, H1. subst x'.
  eapply sim_bind.
  { eapply (sim_fold eq pR); [apply forall2_same| |split; [reflexivity|exact H1]]. intros a b [s1 f2] [s2 f2'] -> Ha [E2 H2]. cbn in E2, H2. subst s2.
    eapply sim_bind; [apply elem_R; exact H2|]. intros [y f3] [y' f3'] [E3 H3]. cbn in E3, H3. subst y'. split; auto. }
  intros [r f2] [r' f2'] [E2 H2]. cbn in E2, H2. subst r'.
  eapply (sim_bind pR).
  { destruct prec as [id|]; [|split; auto]. destruct (is_terminal_ident id); [|reflexivity]. eapply sim_bind; [apply new_R; exact H2|]. intros [y f3] [y' f3'] [E3 H3]. cbn in E3, H3. subst y'. split; auto. }
  intros [ps f3] [ps' f3'] [E3 H3]. cbn in E3, H3. subst ps'. now apply create_R.
Qed.
Ltac setter f f' HF := match goal with |- R ?a _ => let h := eval pattern f in a in match h with ?F f => refine (R_set F f f' _ HF); intros; reflexivity end end.
Lemma decl_R fuel f f' d : R f f' -> (forall a ids, d <> DAssoc a ids) -> sim R (parse_one_decl fuel f d) (parse_one_decl fuel f' d).
Proof.
  intros HF HN. destruct d; try (now apply rule_R); try (exfalso; eapply HN; reflexivity); cbn [parse_one_decl];
    try (rewrite (R_read f_syntax_error f f') by auto); try (rewrite (R_read f_parse_fail f f') by auto); try (rewrite (R_read f_stack_overflow f f') by auto); try (rewrite (R_read f_default_type f f') by auto);
    try (rewrite (R_read f_arg f f') by auto); try (rewrite (R_read f_err f f') by auto); try (rewrite (R_read f_start f f') by auto); try (rewrite (R_read f_wild f f') by auto); try (rewrite (R_read f_token f f') by auto);
    try (rewrite (R_read f_parser f f') by auto); try (rewrite (R_read f_extra_token f f') by auto); try (rewrite (R_read f_stack_type f f') by auto);
    try exact HF; try (match goal with |- sim _ (if ?b then GErr _ else _) _ => destruct b; [reflexivity|]; cbn [sim]; setter f f' HF end);
    try (cbn [sim]; setter f f' HF).
  - destruct (opt_is_some _); [reflexivity|]. exact (R_set (fun q => set_hooks q (Some c) (f_parse_fail f) (f_stack_overflow f)) _ _ (fun _ => eq_refl) HF).
  - destruct (opt_is_some _); [reflexivity|]. exact (R_set (fun q => set_hooks q (f_syntax_error f) (Some c) (f_stack_overflow f)) _ _ (fun _ => eq_refl) HF).
  - destruct (opt_is_some _); [reflexivity|]. exact (R_set (fun q => set_hooks q (f_syntax_error f) (f_parse_fail f) (Some c)) _ _ (fun _ => eq_refl) HF).
  - (* type *)
    eapply (sim_bind eq); [apply sim_eq; reflexivity|]. intros k ? <-. eapply sim_bind; [apply new_R; exact HF|]. intros [s f1] [s' f1'] [E1 H1]. cbn in E1, H1. subst s'. rewrite (R_type _ _ _ H1). destruct (opt_is_some _); [reflexivity|].
    apply R_upd; auto. hes.
  - (* start *)
    destruct (opt_is_some _); [reflexivity|]. destruct (is_nonterminal_ident id); [|reflexivity].
    eapply sim_bind; [apply new_R; exact HF|]. intros [x f1] [x' f1'] [E1 H1]. cbn in E1, H1. subst x'. exact (R_set (fun f => set_start f (Some x)) _ _ (fun _ => eq_refl) H1).
  - (* fallback *)
    eapply sim_bind; [apply (terms_R EFallbackIds ids); exact HF|]. intros [ss f1] [ss' f1'] [E1 H1]. cbn in E1, H1. subst ss'.
    destruct (is_terminal_ident fb); [|reflexivity]. eapply sim_bind; [apply new_R; exact H1|]. intros [x f2] [x' f2'] [E2 H2]. cbn in E2, H2. subst x'.
    eapply sim_bind; [apply check_R, H2|]. intros [] [] _. eapply (sim_fold eq R); [apply forall2_same| |exact H2]. intros a b s t -> _ H. rewrite (R_fb _ _ _ H). destruct (opt_is_some _); [reflexivity|].
    refine (R_set (fun f => set_has_fb f true) _ _ (fun _ => eq_refl) _). apply R_upd; auto. hes.
  - (* wildcard *)
    destruct (opt_is_some _); [reflexivity|]. destruct (is_terminal_ident id); [|reflexivity].
    eapply sim_bind; [apply new_R; exact HF|]. intros [x f1] [x' f1'] [E1 H1]. cbn in E1, H1. subst x'. exact (R_set (fun f => set_wild f (Some x)) _ _ (fun _ => eq_refl) H1).
  - (* class *)
    destruct (is_terminal_ident tk); [|reflexivity].
    eapply sim_bind; [apply new_R; exact HF|]. intros [x f1] [x' f1'] [E1 H1]. cbn in E1, H1. subst x'.
    eapply (sim_fold eq R); [apply forall2_same| |exact H1]. intros a b s t -> Ha H. destruct (is_terminal_ident b); [|reflexivity].
    eapply sim_bind; [apply new_R; exact H|]. intros [y f2] [y' f2'] [E2 H2]. cbn in E2, H2. subst y'. rewrite (R_kind _ _ _ H2). destruct (sy_kind (get_sym f2 x)); try exact I. apply R_upd; auto. hes.
  - destruct (opt_is_some _); [reflexivity|]. exact (R_set (fun q => set_items q (Some (nvariants, generics)) (f_parser f)) _ _ (fun _ => eq_refl) HF).
  - destruct (opt_is_some _); [reflexivity|]. exact (R_set (fun q => set_items q (f_token f) (Some (nfields, generics))) _ _ (fun _ => eq_refl) HF).
Qed.

(** *** [prepare] *)
Definition eg (g : grammar) : grammar :=
  mkGr (map es (g_syms g)) (map er (g_rules g)) (g_nterm g) (g_dflt g) (g_start g) (g_error g) (g_wild g) (ef (g_fe g)).
Lemma extra_R f f' o n : R f f' -> R (extra_token_type f o n) (extra_token_type f' o n).
Proof.
  intros H. unfold extra_token_type. rewrite (R_read f_extra_token f f') by auto. destruct (f_extra_token f) as [et|]; auto.
  generalize (seq 1 (n - 1)) as l. intros l. revert f f' H. induction l as [|i l IH]; intros f f' H; cbn; auto. apply IH. apply R_upd; auto. hes.
Qed.
Lemma optional_R f f' l : R f f' -> sim R (optional_rules f l) (optional_rules f' l).
Proof.
  intros H. unfold optional_rules. eapply (sim_fold eq R); [apply forall2_same| |exact H]. intros a b s t -> _ HF. destruct b as [sr sl]. rewrite (R_type _ _ _ HF).
  eapply sim_bind; [apply create_R, R_upd; auto; hes|]. intros f1 f1' H1. now apply create_R.
Qed.
Lemma ren_es r s s' : es s = es s' -> es (ren_sym r s) = es (ren_sym r s').
Proof. unfold es, ren_sym. cbn. intros H. injection H as -> -> -> -> -> ->. reflexivity. Qed.
Lemma ren_er r x x' : er x = er x' -> er (ren_rule r x) = er (ren_rule r x').
Proof. unfold er, ren_rule. cbn. intros H. injection H as -> -> ->. reflexivity. Qed.
Lemma map_er_ren r l : forall l', map er l = map er l' -> map er (map (ren_rule r) l) = map er (map (ren_rule r) l').
Proof. induction l as [|a l IH]; intros [|a' l'] H; cbn in *; try discriminate; auto. injection H as H1 H2 H3 H4. f_equal; [apply ren_er; unfold er; congruence|auto]. Qed.
Lemma prepare_R ord f f' : R f f' -> sim (fun g g' => eg g = eg g') (prepare ord f) (prepare ord f').
Proof.
  intros H. unfold prepare. rewrite (R_len _ _ H).
  assert (HS : ssort (symbol_less f') (seq 0 (List.length (f_syms f))) = ssort (symbol_less f) (seq 0 (List.length (f_syms f)))).
  { apply ssort_ext. intros a b. unfold symbol_less. now rewrite !(R_kind _ _ _ H). } rewrite HS.
  set (order := ssort (symbol_less f) (seq 0 (List.length (f_syms f)))).
  assert (HK : map (fun id => sy_kind (get_sym f' id)) order = map (fun id => sy_kind (get_sym f id)) order) by (apply map_ext; intros i; now rewrite (R_kind _ _ _ H)). rewrite HK. clear HK.
  rewrite (R_read f_start f f') by auto. assert (r_lhs (nth 0 (f_rules f') dummy_rule) = r_lhs (nth 0 (f_rules f) dummy_rule)) as ->.
  { pose proof (R_rules _ _ H) as HR. destruct (f_rules f), (f_rules f'); try discriminate; auto. cbn in HR. now injection HR. }
  pose proof (extra_R f f' order (S match rposition is_kterm (map (fun id => sy_kind (get_sym f id)) order) with Some i => i | None => 0 end) H) as H1. cbv zeta.
  set (f1 := extra_token_type f _ _) in *. set (f1' := extra_token_type f' _ _) in *. rewrite (R_read f_opt f1 f1') by auto.
  eapply sim_bind; [apply optional_R, H1|]. intros f2 f2' H2. cbn [sim]. unfold eg. cbn [g_syms g_rules g_nterm g_dflt g_start g_error g_wild g_fe]. rewrite (R_read f_wild f2 f2') by auto. f_equal; [| |exact H2].
  - rewrite !map_map. apply map_ext. intros i. apply ren_es. now apply R_get.
  - apply map_er_ren. now apply R_rules.
Qed.
Lemma precs_eg g : eg (find_rule_precedences g) = eg g.
Proof. unfold eg, find_rule_precedences. cbn [g_syms g_rules g_nterm g_dflt g_start g_error g_wild g_fe]. f_equal. rewrite map_map. apply map_ext. reflexivity. Qed.

(** *** The back end *)
Lemma eg_sym g i : gsym (eg g) i = es (gsym g i).
Proof. unfold gsym. rewrite <- es_dummy at 1. apply map_nth. Qed.
Lemma eg_rule g i : grule (eg g) i = er (grule g i).
Proof. unfold grule. change dummy_rule with (er dummy_rule) at 1. apply map_nth. Qed.
Lemma eg_kind g i : sy_kind (gsym (eg g) i) = sy_kind (gsym g i). Proof. now rewrite eg_sym. Qed.
Lemma eg_type g i : has_type (eg g) i = has_type g i. Proof. unfold has_type. now rewrite eg_sym. Qed.
Lemma eg_len g : List.length (g_syms (eg g)) = List.length (g_syms g). Proof. apply map_length. Qed.
Lemma eg_rlen g : List.length (g_rules (eg g)) = List.length (g_rules g). Proof. apply map_length. Qed.
Lemma eg_rhs g i : r_rhs (grule (eg g) i) = r_rhs (grule g i). Proof. now rewrite eg_rule. Qed.
Lemma eg_lhs g i : r_lhs (grule (eg g) i) = r_lhs (grule g i). Proof. now rewrite eg_rule. Qed.
Lemma fold_left_map {A B S} (F : S -> B -> S) (h : A -> B) l : forall s, fold_left F (map h l) s = fold_left (fun s a => F s (h a)) l s.
Proof. induction l as [|a l IH]; intros s; cbn; auto. Qed.
Lemma gfold_map {A B S} (F : S -> B -> gres S) (h : A -> B) l : forall s, gfold F (map h l) s = gfold (fun s a => F s (h a)) l s.
Proof. induction l as [|a l IH]; intros s; cbn; auto. destruct (F s (h a)); cbn; auto. Qed.

Lemma normalize_eg g g' : eg g = eg g' -> sim (fun a b => eg a = eg b) (normalize_rules g) (normalize_rules g').
Proof.
  intros H. assert (HT : forall i, has_type g' i = has_type g i) by (intros i; rewrite <- (eg_type g), <- (eg_type g'); now rewrite H).
  assert (HR : Forall2 (fun a b => er a = er b) (g_rules g) (g_rules g')).
  { pose proof (f_equal g_rules H) as E. cbn in E. revert E. generalize (g_rules g'). induction (g_rules g) as [|a l IH]; intros [|b m] E; try discriminate; constructor; cbn in E; [|apply IH]; injection E as E1 E2 E3 E4; auto. unfold er. congruence. }
  unfold normalize_rules. eapply (sim_bind (fun a b => map er a = map er b)).
  - eapply (sim_fold (fun a b => er a = er b) (fun a b => map er a = map er b)); [exact HR| |reflexivity]. intros a b s t E _ ES. eapply (sim_bind (fun a b => er a = er b)).
    + unfold er in E. injection E as E1 E2 E3. unfold normalize_rule. rewrite <- E1, <- E2, <- E3. destruct (r_code a) eqn:E0; try (cbn; unfold er; congruence). rewrite HT.
      rewrite (filter_ext _ (fun p => has_type g (fst p)) (fun p => HT (fst p))). rewrite (map_ext (fun p => (fst p, if has_type g' (fst p) then true else snd p)) (fun p => (fst p, if has_type g (fst p) then true else snd p))) by (intros; now rewrite HT).
      destruct (has_type g (r_lhs a)); [|cbn; unfold er; rewrite E1, E2, E0, <- E3; reflexivity]. destruct (_ && _); [|reflexivity]. reflexivity.
    + intros x y Exy. cbn. rewrite !map_app, ES. cbn [map]. now rewrite Exy.
  - intros x y E. cbn [sim]. unfold eg at 1 2. cbn [g_syms g_rules g_nterm g_dflt g_start g_error g_wild g_fe].
    f_equal; [exact (f_equal g_syms H)|exact E|exact (f_equal g_nterm H)|exact (f_equal g_dflt H)|exact (f_equal g_start H)|exact (f_equal g_error H)|exact (f_equal g_wild H)|exact (f_equal g_fe H)].
Qed.

(** *** FIRST sets and states *)
Lemma lambda_eg g fuel : forall lam, lambda_loop fuel (eg g) lam = lambda_loop fuel g lam.
Proof. induction fuel as [|n IH]; intros lam; cbn [lambda_loop]; auto. cbn [g_rules eg]. rewrite fold_left_map. change (fun s a => lambda_rule s (er a)) with lambda_rule. destruct (fold_left lambda_rule _ _) as [l []]; auto. Qed.
Lemma first_rhs_eg g lam s1 : forall rhs fs pr, first_rhs (eg g) lam s1 rhs fs pr = first_rhs g lam s1 rhs fs pr.
Proof. induction rhs as [|[s2 al] rhs IH]; intros fs pr; cbn [first_rhs]; auto. rewrite eg_kind, !IH. destruct (sy_kind (gsym g s2)); auto. Qed.
Lemma first_loop_eg g lam fuel : forall fs, first_loop fuel (eg g) lam fs = first_loop fuel g lam fs.
Proof.
  induction fuel as [|n IH]; intros fs; cbn [first_loop]; auto. cbn [g_rules eg]. rewrite fold_left_map. rewrite (fold_left_ext _ (fun st r => first_rhs g lam (r_lhs r) (r_rhs r) (fst st) (snd st))) by (intros; apply first_rhs_eg).
  destruct (fold_left _ _ _) as [l []]; auto.
Qed.
Lemma firsts_eg g fuel : find_first_sets fuel (eg g) = find_first_sets fuel g.
Proof. unfold find_first_sets. rewrite eg_len. apply gbind_ext; [apply lambda_eg|]. intros lam. apply gbind_ext; auto. apply first_loop_eg. Qed.
Lemma follow_rest_eg g fi : forall rest fws, follow_rest (eg g) fi rest fws = follow_rest g fi rest fws.
Proof. induction rest as [|[x al] rest IH]; intros fws; cbn [follow_rest]; auto. rewrite eg_kind. destruct (sy_kind (gsym g x)); auto. cbv zeta. now rewrite IH. Qed.
Lemma rules_of_eg g s : rules_of (eg g) s = rules_of g s.
Proof. unfold rules_of. rewrite eg_rlen. apply filter_ext. intros i. now rewrite eg_lhs. Qed.
Lemma closure_loop_eg g fi fuel : forall i cur cs, closure_loop fuel (eg g) fi i cur cs = closure_loop fuel g fi i cur cs.
Proof.
  induction fuel as [|n IH]; intros i cur cs; cbn [closure_loop]; auto. destruct (nth_error cur i) as [cfp|]; auto. cbv zeta. rewrite eg_rhs.
  destruct (nth_error _ _) as [[sp al]|]; auto. rewrite eg_kind, !IH. destruct (sy_kind (gsym g sp)); auto. rewrite rules_of_eg. change (g_error (eg g)) with (g_error g). destruct (rules_of g sp) as [|r0 rl]; auto.
  rewrite (fold_left_ext (closure_rule (eg g) fi cfp (skipn (S (c_dot (cfg cs cfp))) (r_rhs (grule g (c_rule (cfg cs cfp)))))) (closure_rule g fi cfp (skipn (S (c_dot (cfg cs cfp))) (r_rhs (grule g (c_rule (cfg cs cfp))))))).
  - destruct (fold_left _ _ _) as [c1 c2]. apply IH.
  - intros [c1 c2] r. unfold closure_rule. destruct (add_config c2 c1 r 0) as [[nc cu1] cs1]. now rewrite follow_rest_eg.
Qed.
Lemma shift_actions_eg g sp ns : shift_actions (eg g) sp ns = shift_actions g sp ns.
Proof. unfold shift_actions. now rewrite eg_kind. Qed.
Lemma shift_sym_eg g c : shift_sym (eg g) c = shift_sym g c.
Proof. unfold shift_sym. now rewrite eg_rhs. Qed.
Lemma shift_basis_eg g sp : forall l b cs, shift_basis (eg g) sp l b cs = shift_basis g sp l b cs.
Proof.
  induction l as [|c l IH]; intros b cs; cbn [shift_basis]; auto. rewrite shift_sym_eg. cbv zeta. rewrite !IH. destruct (c_complete _); auto. destruct (shift_sym g _) as [bsp|]; auto. destruct (bsp =? sp); auto.
  destruct (add_config _ _ _ _) as [[x y] z]. apply IH.
Qed.
Lemma build_shifts_eg g get get' : (forall b p, get' b p = get b p) -> forall l aps p, build_shifts_loop (eg g) get' l aps p = build_shifts_loop g get l aps p.
Proof.
  intros HG. induction l as [|c l IH]; intros aps p; cbn [build_shifts_loop]; auto. rewrite shift_sym_eg. cbv zeta. rewrite !IH. destruct (c_complete _); auto. destruct (shift_sym g _) as [sp|]; auto.
  rewrite shift_basis_eg. destruct (shift_basis g sp (c :: l) [] (p_cfgs p)) as [b cs]. apply gbind_ext; [apply HG|]. intros [ns p']. rewrite shift_actions_eg. apply IH.
Qed.
Lemma get_state_eg g fi fuel : forall cur p, get_state fuel (eg g) fi cur p = get_state fuel g fi cur p.
Proof.
  induction fuel as [|n IH]; intros cur p; [reflexivity|]. cbn [get_state]. destruct (state_find p _) as [s|]; auto. apply gbind_ext; [apply closure_loop_eg|]. intros [cf cs]. cbv zeta. apply gbind_ext; auto. now apply build_shifts_eg.
Qed.
Lemma find_states_eg g fi fuel : find_states fuel (eg g) fi = find_states fuel g fi.
Proof.
  unfold find_states. change (g_start (eg g)) with (g_start g). assert (existsb (fun r => existsb (fun p => fst p =? g_start g) (r_rhs r)) (g_rules (eg g)) = existsb (fun r => existsb (fun p => fst p =? g_start g) (r_rhs r)) (g_rules g)) as ->.
  { cbn [g_rules eg]. induction (g_rules g) as [|r l IH]; cbn; auto. now rewrite IH. }
  destruct (existsb _ _); auto. assert (start_basis (eg g) = start_basis g) as ->.
  { unfold start_basis. change (g_start (eg g)) with (g_start g). rewrite eg_kind, rules_of_eg. reflexivity. }
  destruct (start_basis g) as [b cs]. apply gbind_ext; auto. apply get_state_eg.
Qed.

(** *** Actions, but for their conflicts *)
Lemma raw_actions_eg g p : raw_actions (eg g) p = raw_actions g p.
Proof.
  unfold raw_actions. change (g_start (eg g)) with (g_start g). f_equal. apply map_ext. intros s. do 2 f_equal. unfold reduce_actions. change (g_nterm (eg g)) with (g_nterm g). apply flat_map_ext. intros c. cbv zeta. now rewrite eg_rhs.
Qed.
Lemma fallback_differs_eg g acts d fuel : forall s, fallback_differs fuel (eg g) acts d s = fallback_differs fuel g acts d s.
Proof. induction fuel as [|n IH]; intros s; cbn [fallback_differs]; auto. rewrite eg_sym. cbn [sy_fb es]. destruct (sy_fb (gsym g s)) as [fb|]; auto. rewrite IH. reflexivity. Qed.
Lemma ignored_eg g fuel acts : ignored_actions fuel (eg g) acts = ignored_actions fuel g acts.
Proof. unfold ignored_actions. change (f_has_fb (g_fe (eg g))) with (f_has_fb (g_fe g)). destruct (f_has_fb _); auto. apply gfold_ext_in. intros s a _. now rewrite fallback_differs_eg. Qed.
Lemma lhs_start_eg g r : lhs_start (eg g) r = lhs_start g r.
Proof. unfold lhs_start. change (g_start (eg g)) with (g_start g). now rewrite eg_lhs. Qed.
Lemma find_best_eg g ign : forall l b, find_best (eg g) ign l b = find_best g ign l b.
Proof.
  induction l as [|a l IH]; intros b; cbn [find_best]; auto. change (g_wild (eg g)) with (g_wild g). rewrite !IH. destruct (smem _ _); auto. destruct (a_det a); auto; [destruct (g_wild g); now rewrite ?IH|]. rewrite lhs_start_eg. destruct (lhs_start g r); auto. destruct (is_rbest _ _); auto.
Qed.
Lemma make_default_eg g ign r : forall l, make_default (eg g) ign r l = make_default g ign r l.
Proof. induction l as [|a l IH]; cbn [make_default]; auto. now rewrite IH. Qed.
Lemma compress_eg g fuel p : compress_tables fuel (eg g) p = compress_tables fuel g p.
Proof.
  unfold compress_tables. apply gbind_ext; auto. apply gfold_ext_in. intros acc s _. apply gbind_ext; auto. unfold compress_state. apply gbind_ext; [apply ignored_eg|]. intros ign. cbv zeta. rewrite find_best_eg. destruct (b_rule _); auto. destruct (b_wild _); auto. now rewrite make_default_eg.
Qed.

(** *** Tables *)
Definition tyE (a b : typemap * list symbol * list nat) : Prop := fst (fst b) = fst (fst a) /\ map es (snd (fst b)) = map es (snd (fst a)) /\ snd b = snd a.
Lemma nth_es l i : nth i (map es l) dummy_sym = es (nth i l dummy_sym).
Proof. rewrite <- es_dummy at 1. apply map_nth. Qed.
Lemma es_nth l l' i : map es l' = map es l -> es (nth i l' dummy_sym) = es (nth i l dummy_sym).
Proof. intros H. rewrite <- !nth_es. now rewrite H. Qed.
Lemma type_symbols_eg g g' : eg g = eg g' -> sim tyE (type_symbols g) (type_symbols g').
Proof.
  intros H. unfold type_symbols. rewrite <- (eg_len g'), <- H, eg_len. eapply (sim_fold eq tyE); [apply forall2_same| |split; [reflexivity|split; [symmetry; exact (f_equal g_syms H)|reflexivity]]].
  intros i j [[m ss] dts] [[m' ss'] dts'] -> _ (E1 & E2 & E3). cbn [fst snd] in *. subst m' dts'. unfold type_symbol. assert (g_wild g' = g_wild g) as -> by (symmetry; exact (f_equal g_wild H)).
  destruct (opt_eqb _ _ _); [split; auto|]. assert (forall i, sy_kind (nth i ss' dummy_sym) = sy_kind (nth i ss dummy_sym)) as HK by (intros i; pose proof (es_nth ss ss' i E2) as X; now injection X).
  assert (forall i, sy_type (nth i ss' dummy_sym) = sy_type (nth i ss dummy_sym)) as HT by (intros i; pose proof (es_nth ss ss' i E2) as X; now injection X).
  eapply (sim_bind eq).
  - rewrite HK. apply sim_eq. destruct (sy_kind (nth j ss dummy_sym)) as [| |[|c ms]]; try (now rewrite HT); auto.
  - intros dt ? <-. cbv zeta. assert (f_default_type (g_fe g') = f_default_type (g_fe g)) as -> by (symmetry; exact (f_equal (fun g => f_default_type (g_fe g)) H)).
    assert (HU : forall d, map es (upd ss' j (sym_set_type d)) = map es (upd ss j (sym_set_type d))) by (intros d; rewrite !map_upd by hes; now rewrite E2).
    destruct (match dt with Some t => Some t | None => f_default_type (g_fe g) end) as [t|]; [|split; [reflexivity|split; [apply HU|reflexivity]]]. destruct (type_find m t); (split; [reflexivity|split; [apply HU|reflexivity]]).
Qed.
Lemma fallback_table_eg syms syms' dts : map es syms' = map es syms -> fallback_table syms' dts = fallback_table syms dts.
Proof.
  intros H. assert (HE : forall l, fallback_table (map es l) dts = fallback_table l dts).
  { clear. intros l. unfold fallback_table. rewrite rposition_map. cbn [sy_fb es]. apply gfold_ext_in. intros acc i _. now rewrite nth_es. }
  now rewrite <- (HE syms), <- (HE syms'), H.
Qed.
Lemma translate_eg g dts r : translate_code (eg g) dts r = translate_code g dts r.
Proof. unfold translate_code. apply gbind_ext; auto. apply gfold_ext_in. intros _ [X al] _. now rewrite eg_kind. Qed.
Lemma translate_er g dts r : translate_code g dts (er r) = translate_code g dts r.
Proof. reflexivity. Qed.
Lemma gmapM_eg g g' dts : eg g = eg g' -> gmapM (translate_code g' dts) (g_rules g') = gmapM (translate_code g dts) (g_rules g).
Proof.
  intros H. assert (HE : forall g, gmapM (translate_code (eg g) dts) (g_rules (eg g)) = gmapM (translate_code g dts) (g_rules g)).
  { clear. intros g. unfold gmapM. cbn [g_rules eg]. rewrite gfold_map. apply gfold_ext_in. intros acc r _. rewrite translate_er. now rewrite translate_eg. }
  now rewrite <- (HE g), <- (HE g'), H.
Qed.
Lemma all_counts_eg g g' p : eg g = eg g' -> all_counts g' p = all_counts g p.
Proof.
  intros H. unfold all_counts. rewrite <- (eg_rlen g'), <- H, eg_rlen. apply map_ext. intros s. unfold state_counts. assert (g_nterm g' = g_nterm g) as -> by (symmetry; exact (f_equal g_nterm H)). assert (g_dflt g' = g_dflt g) as -> by (symmetry; exact (f_equal g_dflt H)). reflexivity.
Qed.
Lemma state_order_eg g g' p : eg g = eg g' -> state_order g' p = state_order g p.
Proof. intros H. unfold state_order. now rewrite (all_counts_eg g g'). Qed.
Lemma pack_states_eg g g' p : eg g = eg g' -> pack_states g' p = pack_states g p.
Proof.
  intros H. unfold pack_states. rewrite (all_counts_eg g g'), (state_order_eg g g') by auto. rewrite <- (eg_rlen g'), <- H, eg_rlen. unfold pack_all. apply gfold_ext_in. intros k [[s b] n] _. unfold pack_one. destruct (n =? 0); auto.
  unfold action_set, state_num. rewrite (state_order_eg g g') by auto. assert (g_nterm g' = g_nterm g) as -> by (symmetry; exact (f_equal g_nterm H)). assert (g_dflt g' = g_dflt g) as -> by (symmetry; exact (f_equal g_dflt H)). reflexivity.
Qed.
Lemma generate_eg g g' p : eg g = eg g' -> sy_name (gsym g (g_error g)) = "error" -> generate_source g' p = generate_source g p.
Proof.
  intros H HN. apply eq_sim. unfold generate_source. rewrite (all_counts_eg g g'), (state_order_eg g g'), (pack_states_eg g g') by auto.
  assert (HT : forall i, has_type g' i = has_type g i) by (intros i; rewrite <- (eg_type g), <- (eg_type g'); now rewrite H).
  assert (g_wild g' = g_wild g) as -> by (symmetry; exact (f_equal g_wild H)). assert (g_nterm g' = g_nterm g) as -> by (symmetry; exact (f_equal g_nterm H)). assert (g_dflt g' = g_dflt g) as -> by (symmetry; exact (f_equal g_dflt H)).
  assert (g_start g' = g_start g) as -> by (symmetry; exact (f_equal g_start H)). assert (g_error g' = g_error g) as -> by (symmetry; exact (f_equal g_error H)).
  assert (f_token (g_fe g') = f_token (g_fe g)) as -> by (symmetry; exact (f_equal (fun g => f_token (g_fe g)) H)). assert (f_parser (g_fe g') = f_parser (g_fe g)) as -> by (symmetry; exact (f_equal (fun g => f_parser (g_fe g)) H)).
  assert (f_stack_limit (g_fe g') = f_stack_limit (g_fe g)) as -> by (symmetry; exact (f_equal (fun g => f_stack_limit (g_fe g)) H)).
  assert (List.length (g_syms g') = List.length (g_syms g)) as -> by (rewrite <- (eg_len g'), <- H; apply eg_len). assert (List.length (g_rules g') = List.length (g_rules g)) as -> by (rewrite <- (eg_rlen g'), <- H; apply eg_rlen).
  assert (HU : sy_use (gsym g' (g_error g)) = sy_use (gsym g (g_error g))).
  { assert (X : es (gsym g' (g_error g)) = es (gsym g (g_error g))) by (rewrite <- !eg_sym; now rewrite H). unfold es in X. injection X as X1 _ _ X2 _ _. rewrite X1, HN in X2. exact X2. }
  cbv zeta. eapply (sim_bind eq).
  { apply sim_eq. destruct (g_wild g) as [w|]; auto. now rewrite HT. }
  intros w ? <-. eapply (sim_bind (fun a b => tyE b a)).
  { assert (HS : forall A B (Q : A -> B -> Prop) x y, sim Q x y -> sim (fun b a => Q a b) y x) by (intros A B Q x y; destruct x, y; cbn; auto). apply HS, type_symbols_eg, H. }
  intros [[m' syms'] dts'] [[m syms] dts] (E1 & E2 & E3). cbn [fst snd] in E1, E2, E3. subst m' dts'.
  rewrite (fallback_table_eg syms syms') by auto. rewrite (gmapM_eg g g') by auto.
  apply sim_eq. repeat (apply gbind_ext; [reflexivity|]; intros ?). apply f_equal; f_equal.
  - now rewrite HU.
  - assert (HE : forall l, map (fun s => opt_is_some (sy_type s)) (map es l) = map (fun s => opt_is_some (sy_type s)) l) by (clear; intros l; rewrite map_map; apply map_ext; reflexivity). now rewrite <- (HE syms), <- (HE syms'), E2.
  - pose proof (es_nth syms syms' (g_start g) E2) as X. injection X as _ _ _ _ X _. now rewrite X.
  - assert (HE : forall n l, map sy_name (firstn n (map es l)) = map sy_name (firstn n l)) by (clear; intros n l; rewrite firstn_map, map_map; apply map_ext; reflexivity). now rewrite <- (HE _ syms), <- (HE _ syms'), E2.
Qed.

(** *** Conflicts: there are none without precedences, so there are none with them *)
Lemma conflict_none g g' la x y dx dy : clean g -> resolve_conflict g la x y = (dx, dy, false) -> resolve_conflict g' la x y = (dx, dy, false).
Proof.
  intros HC. unfold resolve_conflict. destruct x, y; intros H; auto; try discriminate.
  - rewrite HC in H. destruct (sy_prec _); discriminate.
  - rewrite HC in H. discriminate.
Qed.
Lemma against_none g g' : clean g -> forall l ap n ap' l', resolve_against g ap l n = (ap', l', n) -> resolve_against g' ap l n = (ap', l', n).
Proof.
  intros HC. induction l as [|nap l IH]; intros ap n ap' l' H; cbn [resolve_against] in *; auto. destruct (a_la ap =? a_la nap); auto.
  destruct (resolve_conflict g _ _ _) as [[dx dy] e] eqn:E. destruct (resolve_against g _ l _) as [[ap1 l1] n1] eqn:E1. inversion H; subst. destruct e.
  - apply resolve_against_le in E1. lia.
  - rewrite (conflict_none g g' _ _ _ _ _ HC E). now rewrite (IH _ _ _ _ E1).
Qed.
Lemma all_none g g' : clean g -> forall k l n l', resolve_all g k l n = (l', n) -> resolve_all g' k l n = (l', n).
Proof.
  intros HC. induction k as [|k IH]; intros l n l' H; cbn [resolve_all] in *; auto. destruct l as [|ap l]; auto.
  destruct (resolve_against g ap l n) as [[ap1 l1] n1] eqn:E1. destruct (resolve_all g k l1 n1) as [l2 n2] eqn:E2. inversion H; subst. pose proof (resolve_against_le _ _ _ _ _ _ _ E1). pose proof (resolve_all_le _ _ _ _ _ _ E2). assert (n1 = n) by lia. subst n1.
  rewrite (against_none g g' HC _ _ _ _ _ E1). now rewrite (IH _ _ _ E2).
Qed.
Lemma state_none g g' s s' : clean g -> resolve_state g s = (s', 0) -> resolve_state g' s = (s', 0).
Proof. intros HC. unfold resolve_state. cbv zeta. destruct (resolve_all g _ _ 0) as [l n] eqn:E. intros H. inversion H; subst. now rewrite (all_none g g' HC _ _ _ _ E). Qed.
Lemma states_none g g' : clean g -> forall l n, fold_left (fun n x => n + snd x) (map (resolve_state g) l) n = 0 -> map (resolve_state g') l = map (resolve_state g) l.
Proof.
  intros HC. induction l as [|s l IH]; intros n H; auto. cbn [map fold_left] in *.
  assert (HL : forall (l : list (state * nat)) n, n <= fold_left (fun n x => n + snd x) l n) by (clear; induction l as [|x l IH]; intros n; cbn; [lia|]; specialize (IH (n + snd x)); lia).
  pose proof (HL (map (resolve_state g) l) (n + snd (resolve_state g s))) as HA. rewrite (IH _ H). f_equal. destruct (resolve_state g s) as [s' k] eqn:E. cbn [snd] in HA, H. assert (k = 0) by lia. subst k. now apply state_none with (g := g).
Qed.
Lemma raw_eg g g' p : eg g = eg g' -> raw_actions g' p = raw_actions g p.
Proof. intros H. now rewrite <- (raw_actions_eg g'), <- H, raw_actions_eg. Qed.
Lemma actions_none g g' p p3 : eg g = eg g' -> clean g -> find_actions g p = GOk (p3, 0) -> find_actions g' p = GOk (p3, 0).
Proof.
  intros H HC. unfold find_actions. cbv zeta. rewrite (raw_eg g g') by auto. assert (List.length (g_rules g') = List.length (g_rules g)) as -> by (rewrite <- (eg_rlen g'), <- H; apply eg_rlen).
  destruct (any_panics _); [discriminate|]. destruct (forallb _ _) eqn:EF; [|discriminate]. intros HG. injection HG as E1 E2. rewrite (states_none g g' HC _ _ E2). rewrite EF. now rewrite E1, E2.
Qed.

Theorem back_R fuel ord f f' b : R f f' -> build_fe fuel ord f = GOk b -> clean (bt_grammar b) -> sy_name (gsym (bt_grammar b) (g_error (bt_grammar b))) = "error" ->
  exists b', build_fe fuel ord f' = GOk b' /\ eg (bt_grammar b') = eg (bt_grammar b) /\ bt_firsts b' = bt_firsts b /\ bt_auto b' = bt_auto b /\ bt_acts b' = bt_acts b /\ bt_comp b' = bt_comp b /\ bt_tables b' = bt_tables b.
Proof.
  intros HR HB HC HN. unfold build_fe in *. pose proof (prepare_R ord f f' HR) as S0. destruct (prepare ord f) as [g0| | |] eqn:E0; try discriminate. destruct (prepare ord f') as [g0'| | |]; try contradiction. cbn [gbind sim] in *.
  assert (H1 : eg (find_rule_precedences g0) = eg (find_rule_precedences g0')) by (now rewrite !precs_eg). pose proof (normalize_eg _ _ H1) as S1.
  destruct (normalize_rules (find_rule_precedences g0)) as [g| | |] eqn:E1; try discriminate. destruct (normalize_rules (find_rule_precedences g0')) as [g'| | |]; try contradiction. cbn [gbind sim] in *.
  assert (HF : find_first_sets fuel g' = find_first_sets fuel g) by (now rewrite <- (firsts_eg g'), <- S1, firsts_eg). rewrite HF. destruct (find_first_sets fuel g) as [fi| | |] eqn:E2; try discriminate. cbn [gbind] in *.
  assert (HS : find_states fuel g' fi = find_states fuel g fi) by (now rewrite <- (find_states_eg g'), <- S1, find_states_eg). rewrite HS. destruct (find_states fuel g fi) as [p1| | |]; try discriminate. cbn [gbind] in *.
  destruct (find_follow_sets fuel (find_links p1)) as [p2| | |]; try discriminate. cbn [gbind] in *. destruct (find_actions g p2) as [[p3 n]| | |] eqn:E3; try discriminate. cbn [gbind] in *. destruct n as [|n]; [|discriminate]. cbn [Nat.ltb Nat.leb] in *.
  destruct (compress_tables fuel g p3) as [p4| | |] eqn:E4; try discriminate. cbn [gbind] in *. destruct (generate_source g p4) as [t| | |] eqn:E5; try discriminate. cbn [gbind] in *. injection HB as <-. cbn [bt_grammar bt_firsts bt_auto bt_acts bt_comp bt_tables] in *.
  rewrite (actions_none g g' _ _ S1 HC E3). cbn [gbind Nat.ltb Nat.leb]. assert (HK : compress_tables fuel g' p3 = compress_tables fuel g p3) by (now rewrite <- (compress_eg g'), <- S1, compress_eg). rewrite HK, E4. cbn [gbind].
  rewrite (generate_eg g g' p4 S1 HN), E5. cbn [gbind]. eexists. split; [reflexivity|]. cbn [bt_grammar bt_firsts bt_auto bt_acts bt_comp bt_tables]. repeat split; auto.
Qed.
