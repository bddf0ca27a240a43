(** Renaming the symbols of a grammar: what it is, and that the front end commutes with it
    (C49). *)
From Verif Require Import Base Syntax BaseFacts FrontEnd First States Actions Tables DeclMore.
Open Scope string_scope. Open Scope nat_scope. Open Scope list_scope.

Definition ren_elem (u : ident -> ident) (e : rhs_elem) : rhs_elem :=
  let '(ts, o, al) := e in (map u ts, o, al).
(** The names of symbols are renamed; types, aliases, the module and the generic parameters of
    the token enum and the parser are not names of symbols. *)
Definition ren_decl (u : ident -> ident) (d : decl) : decl :=
  match d with
  | DType n id t => DType n (u id) t
  | DAssoc a ids => DAssoc a (map u ids)
  | DStartSymbol id => DStartSymbol (u id)
  | DFallback fb ids => DFallback (u fb) (map u ids)
  | DWildcard id => DWildcard (u id)
  | DTokenClass tk ids => DTokenClass (u tk) (map u ids)
  | DRule lhs rhs a p => DRule (u lhs) (map (ren_elem u) rhs) a (option_map u p)
  | d => d
  end.
Definition elem_names (e : rhs_elem) : list ident := fst (fst e).
(** [u] gives different symbols different names, keeps upper case and lower case, and leaves
    the error symbol alone. *)
Record renaming (u : ident -> ident) (ds : list decl) : Prop := {
  rn_error : u "error" = "error";
  rn_inj : forall a b, In a ("error" :: flat_map mention ds) -> In b ("error" :: flat_map mention ds) -> u a = u b -> a = b;
  rn_term : forall a, In a (flat_map mention ds) -> is_terminal_ident (u a) = is_terminal_ident a;
  rn_nonterm : forall a, In a (flat_map mention ds) -> is_nonterminal_ident (u a) = is_nonterminal_ident a }.

(** Two computations that end alike *)
Definition sim {A B} (R : A -> B -> Prop) (x : gres A) (y : gres B) : Prop :=
  match x, y with
  | GOk a, GOk b => R a b
  | GErr e, GErr e' => e = e'
  | GPanic, GPanic => True
  | GFuel, GFuel => True
  | _, _ => False
  end.
Lemma sim_bind {A B C D} (R : A -> B -> Prop) (Q : C -> D -> Prop) x y F G : sim R x y -> (forall a b, R a b -> sim Q (F a) (G b)) -> sim Q (gbind x F) (gbind y G).
Proof. destruct x, y; cbn; auto; try contradiction. Qed.
Lemma sim_fold {A B S T} (P : A -> B -> Prop) (R : S -> T -> Prop) F G : forall l m, Forall2 P l m -> (forall a b s t, P a b -> In a l -> R s t -> sim R (F s a) (G t b)) -> forall s t, R s t -> sim R (gfold F l s) (gfold G m t).
Proof.
  induction 1 as [|a b l m H H2 IH]; intros HF s t HR; cbn; auto. eapply sim_bind; [apply HF; auto; now left|]. intros s' t' HR'. apply IH; auto. intros. apply HF; auto. now right.
Qed.
Lemma sim_eq {A} (x y : gres A) : x = y -> sim eq x y.
Proof. intros ->. destruct y; cbn; auto. Qed.
Lemma eq_sim {A} (x y : gres A) : sim eq x y -> x = y.
Proof. destruct x, y; cbn; try contradiction; auto; congruence. Qed.
Lemma forall2_map {A B} (h : A -> B) l : Forall2 (fun a b => b = h a) l (map h l).
Proof. induction l; cbn; constructor; auto. Qed.
Lemma forall2_same {A} (l : list A) : Forall2 eq l l.
Proof. induction l; constructor; auto. Qed.
Lemma upd_map {A B} (h : A -> B) (p : A -> A) (q : B -> B) : (forall a, q (h a) = h (p a)) -> forall l i, upd (map h l) i q = map h (upd l i p).
Proof. intros H. induction l as [|a l IH]; intros [|i]; cbn; auto; [now rewrite H|now rewrite IH]. Qed.
Lemma sinsert_ext {A} (p q : A -> A -> bool) : (forall a b, p a b = q a b) -> forall x l, sinsert p x l = sinsert q x l.
Proof. intros H x. induction l as [|y l IH]; cbn; auto. rewrite H, IH. reflexivity. Qed.
Lemma ssort_ext {A} (p q : A -> A -> bool) : (forall a b, p a b = q a b) -> forall l, ssort p l = ssort q l.
Proof. intros H. induction l as [|y l IH]; cbn; auto. rewrite IH. now apply sinsert_ext. Qed.

Definition letter (s : ident) : bool := is_terminal_ident s || is_nonterminal_ident s.

Section Front.
Context (u : ident -> ident) (N : list ident).
Context (U_err : u "error" = "error") (U_in : In "error" N).
Context (U_inj : forall a b, In a N -> In b N -> u a = u b -> a = b).
Context (U_t : forall a, In a N -> is_terminal_ident (u a) = is_terminal_ident a).
Context (U_n : forall a, In a N -> is_nonterminal_ident (u a) = is_nonterminal_ident a).

(** The names the generator makes up are kept *)
Definition rename (s : ident) : ident := if letter s then u s else s.
Definition okn (s : ident) : Prop := letter s = true -> In s N.
Definition rs (s : symbol) : symbol :=
  mkSym (rename (sy_name s)) (sy_kind s) (sy_fb s) (sy_prec s) (sy_use s) (sy_type s) (sy_attrs s).
Definition rf (f : fe) : fe := set_syms f (map rs (f_syms f)).
Definition okf (f : fe) : Prop := forall s, In s (f_syms f) -> okn (sy_name s).
Definition ff (f f' : fe) : Prop := f' = rf f /\ okf f.

Lemma letter_rename s : okn s -> letter (rename s) = letter s.
Proof. intros H. unfold rename. destruct (letter s) eqn:E; auto. unfold letter. rewrite U_t, U_n by auto. exact E. Qed.
Lemma rename_inj a b : okn a -> okn b -> rename a = rename b -> a = b.
Proof.
  intros Ha Hb H. assert (HL : letter a = letter b) by (rewrite <- (letter_rename a), <- (letter_rename b) by auto; congruence). unfold rename in H. rewrite <- HL in H. destruct (letter a) eqn:E; auto.
Qed.
Lemma rename_eqb a b : okn a -> okn b -> String.eqb (rename a) (rename b) = String.eqb a b.
Proof.
  intros Ha Hb. destruct (String.eqb_spec a b) as [->|Hn]; [apply String.eqb_refl|]. apply String.eqb_neq. intros H. now apply Hn, rename_inj.
Qed.
Lemma okn_in a : In a N -> okn a.
Proof. intros H _. exact H. Qed.
Lemma okn_empty : okn "".
Proof. intros H. discriminate. Qed.
Lemma rename_empty a : okn a -> String.eqb (rename a) "" = String.eqb a "".
Proof. intros H. change "" with (rename "") at 1. apply rename_eqb; auto. apply okn_empty. Qed.
Lemma rs_dummy : rs dummy_sym = dummy_sym.
Proof. reflexivity. Qed.
Lemma rf_get f i : get_sym (rf f) i = rs (get_sym f i).
Proof. unfold get_sym, rf. cbn. rewrite <- rs_dummy at 1. apply map_nth. Qed.
Lemma position_ren l n : (forall s, In s l -> okn (sy_name s)) -> okn n -> position (fun s => String.eqb (sy_name s) (rename n)) (map rs l) = position (fun s => String.eqb (sy_name s) n) l.
Proof.
  induction l as [|s l IH]; intros H Hn; cbn; auto. rewrite rename_eqb by (auto; apply H; now left). rewrite IH; auto. intros x Hx. apply H. now right.
Qed.
Lemma rf_set f l : rf (set_syms f l) = set_syms f (map rs l).
Proof. reflexivity. Qed.
Lemma okf_upd f i h : okf f -> (forall s, sy_name (h s) = sy_name s) -> okf (set_syms f (upd (f_syms f) i h)).
Proof.
  intros H Hh s Hs. cbn in Hs. revert i Hs. unfold okf in H. induction (f_syms f) as [|a l IH]; intros [|i] Hs; cbn in Hs; try contradiction.
  - destruct Hs as [<-|Hs]; [rewrite Hh; apply H; now left|apply H; now right].
  - destruct Hs as [<-|Hs]; [apply H; now left|]. apply IH with i; auto. intros x Hx. apply H. now right.
Qed.
Definition keeps (h : symbol -> symbol) : Prop := (forall s, h (rs s) = rs (h s)) /\ forall s, sy_name (h s) = sy_name s.
Lemma ff_upd f f' i h : ff f f' -> keeps h -> ff (set_syms f (upd (f_syms f) i h)) (set_syms f' (upd (f_syms f') i h)).
Proof.
  intros [-> H] [K1 K2]. split; [|now apply okf_upd]. unfold rf. cbn. now rewrite (upd_map rs h h) by auto.
Qed.
Lemma ff_set (f f' : fe) h : ff f f' -> h (rf f) = rf (h f) -> f_syms (h f) = f_syms f -> ff (h f) (h f').
Proof. intros [-> H] H1 H2. split; auto. intros s Hs. rewrite H2 in Hs. now apply H. Qed.
Lemma ff_get f f' i : ff f f' -> get_sym f' i = rs (get_sym f i).
Proof. intros [-> _]. apply rf_get. Qed.

Definition pf {A} (x y : A * fe) : Prop := fst x = fst y /\ ff (snd x) (snd y).
Lemma new_sim f f' n n' t : ff f f' -> okn n -> n' = rename n -> sim pf (symbol_new f n t) (symbol_new f' n' t).
Proof.
  intros [-> H] Hn ->. assert (HF : ff f (rf f)) by (split; auto). unfold symbol_new. rewrite rename_empty by auto. cbn [f_syms rf set_syms]. rewrite position_ren by auto.
  assert (HA : sim pf (GOk (List.length (f_syms f), set_syms f (f_syms f ++ [mkSym n (kind_of_nst t) None None 1 None 0]))) (GOk (List.length (map rs (f_syms f)), set_syms (rf f) (map rs (f_syms f) ++ [mkSym (rename n) (kind_of_nst t) None None 1 None 0])))).
  { split; cbn [fst snd]; [now rewrite map_length|]. split; [unfold rf; cbn; now rewrite map_app|]. intros s Hs. cbn in Hs. apply in_app_iff in Hs as [Hs|[<-|[]]]; auto. }
  destruct (String.eqb n ""); [exact HA|]. destruct (position _ (f_syms f)) as [i|]; [|exact HA].
  assert (HU : ff (set_syms f (upd (f_syms f) i sym_incr_use)) (set_syms (rf f) (upd (map rs (f_syms f)) i sym_incr_use))) by (apply (ff_upd f (rf f)); auto; split; reflexivity).
  rewrite rf_get. cbn [sy_kind rs]. destruct t; try (split; [reflexivity|exact HU]). destruct (sy_kind (get_sym f i)); try exact I; try (split; [reflexivity|exact HU]). split; [reflexivity|].
  apply (ff_upd _ _ i _ HU). split; reflexivity.
Qed.
Lemma use_t a : In a N -> is_terminal_ident a = true -> u a = rename a.
Proof. intros _ H. unfold rename, letter. now rewrite H. Qed.
Lemma use_n a : In a N -> is_nonterminal_ident a = true -> u a = rename a.
Proof. intros _ H. unfold rename, letter. now rewrite H, orb_true_r. Qed.
Lemma create_sim f f' l r c ps : ff f f' -> sim ff (create_rule f l r c ps) (create_rule f' l r c ps).
Proof.
  intros H. unfold create_rule. rewrite (ff_get _ _ _ H). cbn [sy_kind rs]. destruct (sy_kind (get_sym f l)); try exact I. destruct H as [-> H]. split; auto.
Qed.
Lemma opt_letter k : letter (optional_name k) = false.
Proof. reflexivity. Qed.
Lemma rename_opt k : optional_name k = rename (optional_name k).
Proof. unfold rename. now rewrite opt_letter. Qed.
Lemma okn_opt k : okn (optional_name k).
Proof. intros H. now rewrite opt_letter in H. Qed.

(** A list of names added one by one *)
Lemma terms_sim (e : gerr) l : incl l N -> forall ss f f', ff f f' ->
  sim pf (gfold (fun '(ss, f) tok => if is_terminal_ident tok then '(s, f1) <-! symbol_new f tok NTerm ; GOk (ss ++ [s], f1) else GErr e) l (ss, f))
         (gfold (fun '(ss, f) tok => if is_terminal_ident tok then '(s, f1) <-! symbol_new f tok NTerm ; GOk (ss ++ [s], f1) else GErr e) (map u l) (ss, f')).
Proof.
  intros HL ss f f' H. eapply (sim_fold (fun a b => b = u a) pf); [apply forall2_map| |split; auto].
  intros a b [s1 f1] [s2 f2] -> Ha [E HF]. cbn in E, HF. subst s2. rewrite U_t by auto. destruct (is_terminal_ident a) eqn:Et; [|reflexivity].
  eapply sim_bind; [apply new_sim; eauto; [now apply okn_in, HL|now apply use_t; auto]|]. intros [s f3] [s' f3'] [E HF']. cbn in E, HF'. subst s'. split; auto.
Qed.
Lemma elem_sim f f' e : ff f f' -> incl (elem_names e) N -> sim pf (rhs_elem_sym f e) (rhs_elem_sym f' (ren_elem u e)).
Proof.
  intros HF HN. destruct e as [[toks o] al]. cbn in HN. unfold rhs_elem_sym, ren_elem. destruct toks as [|tok [|tok2 toks]]; cbn [map].
  - exact I.
  - assert (Hin : In tok N) by (apply HN; now left). rewrite U_t, U_n by auto.
    assert (HX : forall t, u tok = rename tok -> sim pf (if o then '(sym_r, f1) <-! symbol_new f tok t; match find (fun p => fst p =? sym_r) (f_opt f1) with Some (_, sym_l) => GOk (sym_l, opt_is_some al, f1) | None => '(sym_l, f2) <-! symbol_new f1 (optional_name (List.length (f_opt f1))) NNonTerm; GOk (sym_l, opt_is_some al, set_opt f2 (f_opt f2 ++ [(sym_r, sym_l)])) end else '(s, f1) <-! symbol_new f tok t; GOk (s, opt_is_some al, f1))
      (if o then '(sym_r, f1) <-! symbol_new f' (u tok) t; match find (fun p => fst p =? sym_r) (f_opt f1) with Some (_, sym_l) => GOk (sym_l, opt_is_some al, f1) | None => '(sym_l, f2) <-! symbol_new f1 (optional_name (List.length (f_opt f1))) NNonTerm; GOk (sym_l, opt_is_some al, set_opt f2 (f_opt f2 ++ [(sym_r, sym_l)])) end else '(s, f1) <-! symbol_new f' (u tok) t; GOk (s, opt_is_some al, f1))).
    { intros t E. pose proof (new_sim f f' tok (u tok) t HF (okn_in _ Hin) E) as HS. destruct o.
      - eapply sim_bind; [exact HS|]. intros [s f1] [s' f1'] [E1 H1]. cbn in E1, H1. subst s'. destruct H1 as [-> H1]. cbn [f_opt rf set_syms]. destruct (find _ (f_opt f1)) as [[x y]|]; [split; auto; split; auto|].
        eapply sim_bind; [apply new_sim; [split; [reflexivity|exact H1]|apply okn_opt|apply rename_opt]|]. intros [z f2] [z' f2'] [E2 H2]. cbn in E2, H2. subst z'. split; auto. cbn [snd]. destruct H2 as [-> H2]. split; auto.
      - eapply sim_bind; [exact HS|]. intros [s f1] [s' f1'] [E1 H1]. cbn in E1, H1. subst s'. split; auto. }
    destruct (is_terminal_ident tok) eqn:Et; [cbn [gbind]; apply HX; now apply use_t|]. destruct (is_nonterminal_ident tok) eqn:En; [cbn [gbind]; apply HX; now apply use_n|]. reflexivity.
  - eapply sim_bind; [apply new_sim; [exact HF|apply okn_empty|reflexivity]|]. intros [mt f1] [mt' f1'] [E1 H1]. cbn in E1, H1. subst mt'.
    eapply sim_bind; [apply (terms_sim ECompound (tok :: tok2 :: toks) HN [] f1 f1' H1)|]. intros [ss f2] [ss' f2'] [E2 H2]. cbn in E2, H2. subst ss'. rewrite (ff_get _ _ _ H2). cbn [sy_kind rs].
    destruct (sy_kind (get_sym f2 mt)); try exact I. split; [reflexivity|]. apply ff_upd; auto. split; reflexivity.
Qed.
Lemma check_sim fuel : forall f f' syms fb, ff f f' -> sim eq (fallback_check fuel f syms fb) (fallback_check fuel f' syms fb).
Proof.
  induction fuel as [|n IH]; intros f f' syms fb H; cbn; auto. rewrite (ff_get _ _ _ H). cbn [sy_fb rs]. destruct (sy_fb (get_sym f fb)) as [nx|]; [|reflexivity]. destruct (smem nx syms); [reflexivity|]. now apply IH.
Qed.
Lemma decl_sim fuel f f' d : ff f f' -> incl (mention d) N -> sim ff (parse_one_decl fuel f d) (parse_one_decl fuel f' (ren_decl u d)).
Proof.
  intros HF HN. pose proof HF as [-> HO].
  destruct d; cbn [mention] in HN; cbn [parse_one_decl ren_decl f_syntax_error f_parse_fail f_stack_overflow f_default_type f_arg f_err f_start f_wild f_token f_parser f_extra_token f_stack_type rf set_syms];
    try exact HF; try (match goal with |- sim _ (if ?b then _ else _) _ => destruct b; [reflexivity|]; split; [reflexivity|exact HO] end).
  - (* type *)
    assert (Hin : In id N) by (apply HN; now left). rewrite U_t, U_n by auto.
    assert (HX : forall k, u id = rename id -> sim ff ('(s, f1) <-! symbol_new f id k; if opt_is_some (sy_type (get_sym f1 s)) then GErr ETypeDup else GOk (set_syms f1 (upd (f_syms f1) s (fun y => sym_set_attrs nattrs (sym_set_type t y)))))
       ('(s, f1) <-! symbol_new (rf f) (u id) k; if opt_is_some (sy_type (get_sym f1 s)) then GErr ETypeDup else GOk (set_syms f1 (upd (f_syms f1) s (fun y => sym_set_attrs nattrs (sym_set_type t y)))))).
    { intros k E. eapply sim_bind; [apply new_sim; [exact HF|now apply okn_in|exact E]|]. intros [s f1] [s' f1'] [E1 H1]. cbn in E1, H1. subst s'. rewrite (ff_get _ _ _ H1). cbn [sy_type rs]. destruct (opt_is_some _); [reflexivity|]. apply ff_upd; auto. split; reflexivity. }
    destruct (is_terminal_ident id) eqn:Et; [apply HX; now apply use_t|]. destruct (is_nonterminal_ident id) eqn:En; [|reflexivity]. destruct (0 <? nattrs); [reflexivity|]. apply HX; now apply use_n.
  - (* precedence *)
    eapply (sim_fold (fun a b => b = u a) ff); [apply forall2_map| |split; auto]. intros a0 b s t -> Ha H. rewrite U_t by auto. destruct (is_terminal_ident a0) eqn:Et; [|reflexivity].
    eapply sim_bind; [apply new_sim; [exact H|now apply okn_in, HN|now apply use_t; auto]|]. intros [x f1] [x' f1'] [E1 H1]. cbn in E1, H1. subst x'. rewrite (ff_get _ _ _ H1). cbn [sy_prec rs]. destruct (opt_is_some _); [reflexivity|].
    assert (f_prec f1' = f_prec f1) as -> by (destruct H1 as [-> _]; reflexivity). apply ff_upd; auto. split; reflexivity.
  - (* start *)
    assert (Hin : In id N) by (apply HN; now left). rewrite U_n by auto. destruct (opt_is_some _); [reflexivity|]. destruct (is_nonterminal_ident id) eqn:En; [|reflexivity].
    eapply sim_bind; [apply new_sim; [exact HF|now apply okn_in|now apply use_n]|]. intros [x f1] [x' f1'] [E1 H1]. cbn in E1, H1. subst x'. exact (ff_set f1 f1' (fun f => set_start f (Some x)) H1 eq_refl eq_refl).
  - (* fallback *)
    assert (Hin : In fb N) by (apply HN; now left). eapply sim_bind; [apply (terms_sim EFallbackIds ids); [intros y Hy; apply HN; now right|exact HF]|]. intros [ss f1] [ss' f1'] [E1 H1]. cbn in E1, H1. subst ss'.
    rewrite U_t by auto. destruct (is_terminal_ident fb) eqn:Et; [|reflexivity]. eapply sim_bind; [apply new_sim; [exact H1|now apply okn_in|now apply use_t]|]. intros [x f2] [x' f2'] [E2 H2]. cbn in E2, H2. subst x'.
    eapply sim_bind; [apply check_sim, H2|]. intros [] [] _. eapply (sim_fold eq ff); [apply forall2_same| |exact H2]. intros a b s t -> _ H. rewrite (ff_get _ _ _ H). cbn [sy_fb rs]. destruct (opt_is_some _); [reflexivity|].
    assert (HU : ff (set_syms s (upd (f_syms s) b (sym_set_fb (Some x)))) (set_syms t (upd (f_syms t) b (sym_set_fb (Some x))))) by (apply ff_upd; auto; split; reflexivity).
    exact (ff_set _ _ (fun f => set_has_fb f true) HU eq_refl eq_refl).
  - (* wildcard *)
    assert (Hin : In id N) by (apply HN; now left). rewrite U_t by auto. destruct (opt_is_some _); [reflexivity|]. destruct (is_terminal_ident id) eqn:En; [|reflexivity].
    eapply sim_bind; [apply new_sim; [exact HF|now apply okn_in|now apply use_t]|]. intros [x f1] [x' f1'] [E1 H1]. cbn in E1, H1. subst x'. exact (ff_set f1 f1' (fun f => set_wild f (Some x)) H1 eq_refl eq_refl).
  - (* class *)
    assert (Hin : In tk N) by (apply HN; now left). rewrite U_t by auto. destruct (is_terminal_ident tk) eqn:En; [|reflexivity].
    eapply sim_bind; [apply new_sim; [exact HF|now apply okn_in|now apply use_t]|]. intros [x f1] [x' f1'] [E1 H1]. cbn in E1, H1. subst x'.
    eapply (sim_fold (fun a b => b = u a) ff); [apply forall2_map| |exact H1]. intros a b s t -> Ha H. assert (Hia : In a N) by (apply HN; now right). rewrite U_t by auto. destruct (is_terminal_ident a) eqn:Et; [|reflexivity].
    eapply sim_bind; [apply new_sim; [exact H|now apply okn_in|now apply use_t]|]. intros [y f2] [y' f2'] [E2 H2]. cbn in E2, H2. subst y'. rewrite (ff_get _ _ _ H2). cbn [sy_kind rs]. destruct (sy_kind (get_sym f2 x)); try exact I. apply ff_upd; auto. split; reflexivity.
  - (* rule *)
    assert (Hin : In lhs N) by (apply HN; now left). rewrite U_n by auto. destruct (is_nonterminal_ident lhs) eqn:En; [|reflexivity].
    eapply sim_bind; [apply new_sim; [exact HF|now apply okn_in|now apply use_n]|]. intros [x f1] [x' f1'] [E1 H1]. cbn in E1, H1. subst x'.
    eapply sim_bind.
    { eapply (sim_fold (fun a b => b = ren_elem u a) pf); [apply forall2_map| |split; [reflexivity|exact H1]]. intros a b [s1 f2] [s2 f2'] -> Ha [E2 H2]. cbn in E2, H2. subst s2.
      eapply sim_bind; [apply elem_sim; [exact H2|]|]. { intros z Hz. apply HN. right. apply in_app_iff. left. apply in_flat_map. exists a. split; auto. destruct a as [[ts o] al]. exact Hz. }
      intros [y f3] [y' f3'] [E3 H3]. cbn in E3, H3. subst y'. split; auto. }
    intros [r f2] [r' f2'] [E2 H2]. cbn in E2, H2. subst r'.
    eapply (sim_bind pf).
    { destruct prec as [id|]; cbn [option_map]; [|split; auto]. assert (Hid : In id N) by (apply HN; right; apply in_app_iff; right; now left). rewrite U_t by auto. destruct (is_terminal_ident id) eqn:Et; [|reflexivity].
      eapply sim_bind; [apply new_sim; [exact H2|now apply okn_in|now apply use_t]|]. intros [y f3] [y' f3'] [E3 H3]. cbn in E3, H3. subst y'. split; auto. }
    intros [ps f3] [ps' f3'] [E3 H3]. cbn in E3, H3. subst ps'. now apply create_sim.
Qed.
Lemma init_ff : ff fe_init fe_init.
Proof. split; [unfold rf, fe_init; cbn; unfold rs, rename; cbn; now rewrite U_err|]. intros s [<-|[<-|[]]] H; [discriminate|exact U_in]. Qed.
Lemma new_decls_sim fuel ds : incl (flat_map mention ds) N -> sim ff (new_from_decls fuel ds) (new_from_decls fuel (map (ren_decl u) ds)).
Proof.
  intros HN. unfold new_from_decls. eapply sim_bind.
  { eapply (sim_fold (fun a b => b = ren_decl u a) ff); [apply forall2_map| |apply init_ff]. intros a b s t -> Ha H. apply decl_sim; auto. intros z Hz. apply HN, in_flat_map. eauto. }
  intros f f' H. eapply sim_bind; [apply (new_sim f f' "{default}" "{default}"); auto; discriminate|]. intros [x f1] [x' f1'] [E1 H1]. cbn in E1, H1. destruct H1 as [-> H1]. cbn [f_rules rf set_syms]. destruct (f_rules f1); [reflexivity|]. split; auto.
Qed.

(** *** [prepare] *)
Definition rg (g : grammar) : grammar :=
  mkGr (map rs (g_syms g)) (g_rules g) (g_nterm g) (g_dflt g) (g_start g) (g_error g) (g_wild g) (rf (g_fe g)).
Lemma extra_sim f f' o n : ff f f' -> ff (extra_token_type f o n) (extra_token_type f' o n).
Proof.
  intros H. unfold extra_token_type. assert (f_extra_token f' = f_extra_token f) as -> by (destruct H as [-> _]; reflexivity). destruct (f_extra_token f) as [et|]; auto.
  generalize (seq 1 (n - 1)) as l. intros l. revert f f' H. induction l as [|i l IH]; intros f f' H; cbn; auto. apply IH. apply ff_upd; auto. split; reflexivity.
Qed.
Lemma optional_sim f f' l : ff f f' -> sim ff (optional_rules f l) (optional_rules f' l).
Proof.
  intros H. unfold optional_rules. eapply (sim_fold eq ff); [apply forall2_same| |exact H]. intros a b s t -> _ HF. destruct b as [sr sl]. rewrite (ff_get _ _ _ HF). cbn [sy_type rs].
  eapply sim_bind; [apply create_sim, ff_upd; auto; split; reflexivity|]. intros f1 f1' H1. now apply create_sim.
Qed.
Lemma prepare_sim ord f f' : ff f f' -> sim (fun g g' => g' = rg g) (prepare ord f) (prepare ord f').
Proof.
  intros H. pose proof H as [E HO]. unfold prepare.
  assert (HL : List.length (f_syms f') = List.length (f_syms f)) by (rewrite E; apply map_length). rewrite HL.
  assert (HS : ssort (symbol_less f') (seq 0 (List.length (f_syms f))) = ssort (symbol_less f) (seq 0 (List.length (f_syms f)))).
  { apply ssort_ext. intros a b. unfold symbol_less. now rewrite !(ff_get _ _ _ H). } rewrite HS.
  set (order := ssort (symbol_less f) (seq 0 (List.length (f_syms f)))).
  assert (HK : map (fun id => sy_kind (get_sym f' id)) order = map (fun id => sy_kind (get_sym f id)) order) by (apply map_ext; intros i; now rewrite (ff_get _ _ _ H)). rewrite HK. clear HK.
  assert (f_start f' = f_start f) as -> by now rewrite E. assert (f_rules f' = f_rules f) as -> by now rewrite E.
  pose proof (extra_sim f f' order (S match rposition is_kterm (map (fun id => sy_kind (get_sym f id)) order) with Some i => i | None => 0 end) H) as H1. cbv zeta.
  set (f1 := extra_token_type f _ _) in *. set (f1' := extra_token_type f' _ _) in *. assert (f_opt f1' = f_opt f1) as -> by (destruct H1 as [-> _]; reflexivity).
  eapply sim_bind; [apply optional_sim, H1|]. intros f2 f2' H2. cbn [sim]. unfold rg. cbn [g_syms g_rules g_nterm g_dflt g_start g_error g_wild g_fe]. destruct H2 as [-> H2]. f_equal.
  rewrite map_map. apply map_ext. intros i. now rewrite rf_get.
Qed.
End Front.
