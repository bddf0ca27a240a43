(** More of what the generator keeps from the declarations: how often "error" is mentioned, the
    stack limit, and that nothing is declared twice. *)
From Verif Require Import Base Syntax FrontEnd BaseFacts FrontFacts DeclSpec DeclFacts.

(** ** Readings of the declarations *)
(** The names a declaration mentions as symbols. *)
Definition mention (d : decl) : list ident :=
  match d with
  | DType _ n _ => [n]
  | DAssoc _ ids => ids
  | DStartSymbol n => [n]
  | DFallback fb ids => fb :: ids
  | DWildcard n => [n]
  | DTokenClass n ids => n :: ids
  | DRule l rhs _ p => l :: flat_map (fun '(toks, _, _) => toks) rhs ++ match p with Some n => [n] | None => [] end
  | _ => []
  end.
Definition mentions (ds : list decl) (n : ident) : Prop := exists d, In d ds /\ In n (mention d).

(** The stack limit: the last %stack_size, 100 without one; 0 means none. *)
Fixpoint limit_from (n : nat) (ds : list decl) : nat :=
  match ds with [] => n | DStackSize m _ :: ds' => limit_from m ds' | _ :: ds' => limit_from n ds' end.
Definition limit_of (ds : list decl) : nat := limit_from 100 ds.

(** The declarations that may be given only once *)
Definition single_kind (d : decl) : option nat :=
  match d with
  | DSyntaxError _ => Some 0 | DParseFail _ => Some 1 | DStackOverflow _ => Some 2 | DDefaultType _ => Some 3
  | DExtraArgument _ => Some 4 | DError _ => Some 5 | DStartSymbol _ => Some 6 | DWildcard _ => Some 7
  | DToken _ _ => Some 8 | DParser _ _ => Some 9 | DExtraToken _ => Some 10
  | _ => None
  end.

(** ** Frames *)
Definition cnt (ns : list ident) : nat := count_occ string_dec ns "error".
Definition euse (f : fe) : nat := sy_use (nth 1 (f_syms f) dummy_sym).
Definition J (f : fe) : Prop := exists l, names f = "$" :: "error" :: l.
Definition rest (f : fe) :=
  (f_arg f, f_err f, f_default_type f, f_extra_token f, f_stack_type f, f_stack_limit f,
   (f_syntax_error f, f_parse_fail f, f_stack_overflow f, f_token f, f_parser f)).
Definition keeps (ns : list ident) (f f' : fe) : Prop :=
  J f -> J f' /\ euse f' = euse f + cnt ns /\ rest f' = rest f /\ f_start f' = f_start f /\ f_wild f' = f_wild f.

Lemma cnt_app l m : cnt (l ++ m) = cnt l + cnt m.
Proof. apply count_occ_app. Qed.
Lemma keeps_refl f : keeps [] f f.
Proof. intros H. splits; auto. Qed.
Lemma keeps_trans l m f1 f2 f3 : keeps l f1 f2 -> keeps m f2 f3 -> keeps (l ++ m) f1 f3.
Proof.
  intros A B H. destruct (A H) as (A1 & A2 & A3 & A4 & A5). destruct (B A1) as (B1 & B2 & B3 & B4 & B5). splits; auto; try congruence.
  rewrite cnt_app. lia.
Qed.
Lemma keeps_upd f i F : (forall s, sy_name (F s) = sy_name s) -> (forall s, sy_use (F s) = sy_use s) -> keeps [] f (set_syms f (upd (f_syms f) i F)).
Proof.
  intros HN HU (l & Hl). splits; auto.
  - exists l. rewrite <- Hl. unfold names. cbn. clear Hl. revert i. induction (f_syms f) as [|s r IH]; intros [|i]; cbn; rewrite ?HN, ?IH; auto.
  - unfold euse. unfold names in Hl. cbn. rewrite Nat.add_0_r. destruct (f_syms f) as [|s0 [|s1 r]]; [discriminate Hl..|]. destruct i as [|[|i]]; cbn; auto.
Qed.
Lemma set_syms_twice f a b : set_syms (set_syms f a) b = set_syms f b. Proof. reflexivity. Qed.

Lemma keeps_new f n t i f' : symbol_new f n t = GOk (i, f') -> keeps [n] f f'.
Proof.
  intros H (l & Hl). unfold symbol_new in H.
  assert (HE : cnt [n] = if String.eqb n "error" then 1 else 0).
  { unfold cnt. cbn. destruct (string_dec n "error") as [->|Hn]; [reflexivity|]. apply String.eqb_neq in Hn. now rewrite Hn. }
  unfold names in Hl. destruct (f_syms f) as [|s0 [|s1 r]] eqn:Es; [discriminate Hl..|]. cbn in Hl. injection Hl as E0 E1 Hr.
  destruct (if String.eqb n "" then None else _) as [j|] eqn:Ep.
  - destruct (String.eqb_spec n "") as [|Hne]; [discriminate|]. cbn [position] in Ep. rewrite E0, E1 in Ep.
    assert (HB : keeps [n] f (set_syms f (upd (f_syms f) j sym_incr_use))).
    { intros _. splits; auto.
      - rewrite Es. destruct j as [|[|j]]; cbn [upd].
        + exists l. unfold names. cbn. now rewrite E0, E1, Hr.
        + exists l. unfold names. cbn. now rewrite E0, E1, Hr.
        + exists (map sy_name (upd r j sym_incr_use)). unfold names. cbn. now rewrite E0, E1.
      - rewrite HE. unfold euse. rewrite Es.
        destruct ("$" =? n)%string eqn:D; [injection Ep as <-; apply String.eqb_eq in D; subst n; cbn; lia|].
        destruct (String.eqb_spec "error" n) as [<-|D1]; [injection Ep as <-; cbn; lia|].
        destruct (position _ r); [|discriminate]. injection Ep as <-. cbn. apply not_eq_sym, String.eqb_neq in D1. rewrite D1. lia. }
    assert (Jf : J f) by (exists l; unfold names; rewrite Es; cbn; now rewrite E0, E1, Hr).
    rewrite Es in HB. destruct t; try (injection H as <- <-; now apply HB). destruct (sy_kind (get_sym f j)); try discriminate; injection H as <- <-.
    + rewrite <- set_syms_twice with (a := upd (s0 :: s1 :: r) j sym_incr_use).
      rewrite <- (app_nil_r [n]). apply (keeps_trans [n] [] f _ _ HB); auto.
      apply (keeps_upd (set_syms f (upd (s0 :: s1 :: r) j sym_incr_use)) j); reflexivity.
    + now apply HB.
  - injection H as <- <-. splits; auto.
    + exists (map sy_name (r ++ [mkSym n (kind_of_nst t) None None 1 None 0])). unfold names. cbn. now rewrite E0, E1.
    + rewrite HE. unfold euse. rewrite Es. cbn. destruct (String.eqb_spec n "error") as [->|]; [|lia]. cbn in Ep. rewrite E0, E1 in Ep. discriminate.
Qed.

Lemma keeps_terms e ids : forall ss f ss' f',
  gfold (fun '(ss, f) tok => if is_terminal_ident tok then '(s, f') <-! symbol_new f tok NTerm ; GOk (ss ++ [s], f') else GErr e) ids (ss, f) = GOk (ss', f') -> keeps ids f f'.
Proof.
  induction ids as [|n ids IH]; intros ss f ss' f' H; cbn [gfold] in H; [injection H as <- <-; apply keeps_refl|].
  destruct (is_terminal_ident n); [|discriminate]. apply gbind_ok in H as ([ss1 f1] & H1 & H). apply gbind_ok in H1 as ([s f2] & H2 & H1).
  injection H1 as <- <-. apply keeps_new in H2. apply (keeps_trans [n] ids f f2); eauto.
Qed.

Lemma opt_name_error k : optional_name k <> "error".
Proof. unfold optional_name. cbn. discriminate. Qed.

Lemma keeps_cnt l m f f' : cnt l = cnt m -> keeps l f f' -> keeps m f f'.
Proof. intros E K H. destruct (K H) as (K1 & K2 & K3). splits; auto; try tauto. lia. Qed.
Lemma cnt_other n : n <> "error" -> cnt [n] = 0.
Proof. intros H. unfold cnt. cbn. now destruct (string_dec n "error"). Qed.

Lemma keeps_elem f e x f' : rhs_elem_sym f e = GOk (x, f') -> keeps (let '(toks, _, _) := e in toks) f f'.
Proof.
  destruct e as [[toks o] alias]. unfold rhs_elem_sym. destruct toks as [|tok [|tok2 toks]]; [discriminate| |]; intros H.
  - apply gbind_ok in H as (t & _ & H). destruct o; apply gbind_ok in H as ([s f1] & H1 & H); apply keeps_new in H1.
    + destruct (find _ _) as [[y sl]|]; [injection H as <- <-; auto|]. apply gbind_ok in H as ([sl f2] & H2 & H). injection H as <- <-.
      apply keeps_new in H2. apply (keeps_cnt ([tok] ++ [optional_name (List.length (f_opt f1))])).
      { rewrite cnt_app, (cnt_other (optional_name _)) by apply opt_name_error. lia. }
      eapply keeps_trans; [exact H1|]. intros HJ. destruct (H2 HJ) as (K1 & K2 & K3). splits; auto; tauto.
    + now injection H as <- <-.
  - apply gbind_ok in H as ([mt f1] & H1 & H). apply keeps_new in H1. apply gbind_ok in H as ([ss f2] & H2 & H). apply keeps_terms in H2.
    destruct (sy_kind (get_sym f2 mt)); try discriminate. injection H as <- <-.
    apply (keeps_cnt ([""] ++ (tok :: tok2 :: toks) ++ [])); [now rewrite app_nil_r, cnt_app|].
    eapply keeps_trans; [exact H1|]. eapply keeps_trans; [exact H2|]. now apply (keeps_upd f2).
Qed.

Lemma keeps_rhs es : forall r f r' f', gfold (fun '(r, f) e => '(x, f') <-! rhs_elem_sym f e ; GOk (r ++ [x], f')) es (r, f) = GOk (r', f') ->
  keeps (flat_map (fun '(toks, _, _) => toks) es) f f'.
Proof.
  induction es as [|e es IH]; intros r f r' f' H; cbn [gfold] in H; [injection H as <- <-; apply keeps_refl|].
  apply gbind_ok in H as ([r1 f1] & H1 & H). apply gbind_ok in H1 as ([x f2] & H2 & H1). injection H1 as <- <-. apply keeps_elem in H2.
  cbn [flat_map]. destruct e as [[toks o] al]. eapply keeps_trans; eauto.
Qed.

(** ** One declaration *)
Definition rest_after (d : decl) (f : fe) :=
  rest (match d with
        | DSyntaxError c => set_hooks f (Some c) (f_parse_fail f) (f_stack_overflow f)
        | DParseFail c => set_hooks f (f_syntax_error f) (Some c) (f_stack_overflow f)
        | DStackOverflow c => set_hooks f (f_syntax_error f) (f_parse_fail f) (Some c)
        | DDefaultType t => set_default_type f (Some t)
        | DExtraArgument t => set_arg f (Some t)
        | DError t => set_err f (Some t)
        | DToken n gs => set_items f (Some (n, gs)) (f_parser f)
        | DParser n gs => set_items f (f_token f) (Some (n, gs))
        | DExtraToken t => set_extra_token f (Some t)
        | DStackSize n t => set_stack f n t
        | _ => f
        end).

Lemma J_same f f' : f_syms f' = f_syms f -> J f -> J f'.
Proof. unfold J, names. now intros ->. Qed.
Lemma cnt_swap a l : cnt (l ++ [a]) = cnt (a :: l).
Proof. rewrite cnt_app. change (a :: l) with ([a] ++ l). rewrite cnt_app. lia. Qed.

Lemma one_decl fuel f d f' : parse_one_decl fuel f d = GOk f' -> J f ->
  J f' /\ euse f' = euse f + cnt (mention d) /\ rest f' = rest_after d f /\
  (f_start f' = f_start f \/ f_start f = None /\ f_start f' <> None) /\ (f_wild f' = f_wild f \/ f_wild f = None /\ f_wild f' <> None).
Proof.
  intros H HJ.
  assert (HK : forall ns f1, cnt ns = cnt (mention d) -> keeps ns f f1 -> rest_after d f = rest f ->
    J f1 /\ euse f1 = euse f + cnt (mention d) /\ rest f1 = rest_after d f /\ f_start f1 = f_start f /\ f_wild f1 = f_wild f).
  { intros ns f1 Ec K E. destruct (K HJ) as (K1 & K2 & K3 & K4 & K5). splits; auto; congruence. }
  destruct d; cbn [parse_one_decl] in H;
    try (destruct (opt_is_some _) eqn:Eo in H; [discriminate|]; injection H as <-; splits; auto; cbn; lia);
    try (injection H as <-; splits; auto; cbn; lia).
  - (* DType *) apply gbind_ok in H as (k & _ & H). apply gbind_ok in H as ([s f1] & H1 & H). destruct (opt_is_some _); [discriminate|].
    injection H as <-. apply keeps_new in H1. destruct (HK ([id] ++ []) (set_syms f1 (upd (f_syms f1) s (fun y => sym_set_attrs nattrs (sym_set_type t y))))) as (?&?&?&?&?); auto.
    { eapply keeps_trans; [exact H1|]. now apply keeps_upd. } splits; auto.
  - (* DAssoc *) assert (K : keeps ids (set_precno f (S (f_prec f))) f').
    { revert H. generalize (set_precno f (S (f_prec f))). clear. induction ids as [|n ids IH]; intros f H; cbn [gfold] in H; [injection H as <-; apply keeps_refl|].
      destruct (is_terminal_ident n); [|discriminate]. apply gbind_ok in H as (f1 & H1 & H). apply gbind_ok in H1 as ([s f2] & H2 & H1).
      destruct (opt_is_some _); [discriminate|]. injection H1 as <-. apply keeps_new in H2. apply IH in H.
      apply (keeps_trans [n] ids f f2); [exact H2|]. apply (keeps_trans [] ids f2 _ _ (keeps_upd f2 s (sym_set_prec (Some (f_prec f2, a))) (fun _ => eq_refl) (fun _ => eq_refl)) H). }
    destruct (HK ids f') as (?&?&?&?&?); auto. splits; auto.
  - (* DStartSymbol *) destruct (opt_is_some (f_start f)) eqn:Eo; [discriminate|]. destruct (is_nonterminal_ident id); [|discriminate].
    apply gbind_ok in H as ([s f1] & H1 & H). injection H as <-. apply keeps_new in H1. destruct (HK [id] f1) as (?&?&?&?&?); auto.
    splits; auto. right. split; [now apply none_if_some|]. discriminate.
  - (* DFallback *) apply gbind_ok in H as ([syms f1] & H1 & H). apply keeps_terms in H1. destruct (is_terminal_ident fb); [|discriminate].
    apply gbind_ok in H as ([fbs f2] & H2 & H). apply keeps_new in H2. apply gbind_ok in H as (u & _ & H).
    assert (K : keeps [] f2 f').
    { revert H. clear. revert f2. induction syms as [|s syms IH]; intros f H; cbn [gfold] in H; [injection H as <-; apply keeps_refl|].
      apply gbind_ok in H as (f1 & H1 & H). destruct (opt_is_some _); [discriminate|]. injection H1 as <-. apply IH in H.
      apply (keeps_trans [] [] f _ _ (keeps_upd f s (sym_set_fb (Some fbs)) (fun _ => eq_refl) (fun _ => eq_refl))). exact H. }
    destruct (HK (ids ++ [fb] ++ []) f') as (?&?&?&?&?); auto; [cbn [app mention]; apply cnt_swap|eapply keeps_trans; [eassumption|]; eapply keeps_trans; eassumption|].
    splits; auto.
  - (* DWildcard *) destruct (opt_is_some (f_wild f)) eqn:Eo; [discriminate|]. destruct (is_terminal_ident id); [|discriminate].
    apply gbind_ok in H as ([s f1] & H1 & H). injection H as <-. apply keeps_new in H1. destruct (HK [id] f1) as (?&?&?&?&?); auto.
    splits; auto. right. split; [now apply none_if_some|]. discriminate.
  - (* DTokenClass *) destruct (is_terminal_ident tk); [|discriminate]. apply gbind_ok in H as ([c f1] & H1 & H). apply keeps_new in H1.
    assert (K : keeps ids f1 f').
    { revert H. clear. revert f1. induction ids as [|n ids IH]; intros f H; cbn [gfold] in H; [injection H as <-; apply keeps_refl|].
      destruct (is_terminal_ident n); [|discriminate]. apply gbind_ok in H as (f1 & H1 & H). apply gbind_ok in H1 as ([s f2] & H2 & H1).
      destruct (sy_kind (get_sym f2 c)) as [| |m]; try discriminate. injection H1 as <-. apply keeps_new in H2. apply IH in H.
      apply (keeps_trans [n] ids f f2); [exact H2|]. apply (keeps_trans [] ids f2 _ _ (keeps_upd f2 c (sym_set_kind (KMulti (m ++ [s]))) (fun _ => eq_refl) (fun _ => eq_refl)) H). }
    destruct (HK ([tk] ++ ids) f') as (?&?&?&?&?); auto; [eapply keeps_trans; eassumption|]. splits; auto.
  - (* DRule *) destruct (is_nonterminal_ident lhs); [|discriminate]. apply gbind_ok in H as ([l f1] & H1 & H). apply keeps_new in H1.
    apply gbind_ok in H as ([r f2] & H2 & H). apply keeps_rhs in H2. apply gbind_ok in H as ([ps f3] & H3 & H).
    assert (K3 : keeps (match prec with Some n => [n] | None => [] end) f2 f3).
    { destruct prec as [n|]; [|injection H3 as <- <-; apply keeps_refl]. destruct (is_terminal_ident n); [|discriminate].
      apply gbind_ok in H3 as ([s f4] & H4 & H3). injection H3 as <- <-. now apply keeps_new in H4. }
    unfold create_rule in H. destruct (sy_kind _); try discriminate. injection H as <-.
    destruct (HK ([lhs] ++ flat_map (fun '(toks, _, _) => toks) rhs ++ match prec with Some n => [n] | None => [] end) f3) as (?&?&?&?&?); auto.
    { eapply keeps_trans; [exact H1|]. eapply keeps_trans; eassumption. } splits; auto.
Qed.

(** ** All declarations *)
Lemma J_init : J fe_init. Proof. exists []. reflexivity. Qed.

Lemma decls_kept fuel ds : forall f f', gfold (parse_one_decl fuel) ds f = GOk f' -> J f ->
  J f' /\ euse f' = euse f + cnt (flat_map mention ds) /\ f_stack_limit f' = limit_from (f_stack_limit f) ds.
Proof.
  induction ds as [|d ds IH]; intros f f' H HJ; cbn [gfold] in H; [injection H as <-; splits; auto; cbn; lia|].
  apply gbind_ok in H as (f1 & H1 & H). destruct (one_decl _ _ _ _ H1 HJ) as (J1 & U1 & R1 & _). destruct (IH f1 f' H J1) as (J2 & U2 & L2).
  splits; auto.
  - cbn [flat_map]. rewrite cnt_app. lia.
  - rewrite L2. assert (E : f_stack_limit f1 = f_stack_limit (match d with DStackSize n t => set_stack f n t | _ => f end)) by (destruct d; injection R1; auto).
    rewrite E. now destruct d.
Qed.

Definition has_slot (k : nat) (f : fe) : bool :=
  match k with
  | 0 => opt_is_some (f_syntax_error f) | 1 => opt_is_some (f_parse_fail f) | 2 => opt_is_some (f_stack_overflow f)
  | 3 => opt_is_some (f_default_type f) | 4 => opt_is_some (f_arg f) | 5 => opt_is_some (f_err f) | 6 => opt_is_some (f_start f)
  | 7 => opt_is_some (f_wild f) | 8 => opt_is_some (f_token f) | 9 => opt_is_some (f_parser f) | 10 => opt_is_some (f_extra_token f)
  | _ => false
  end.

Lemma slot_step fuel f d f' : parse_one_decl fuel f d = GOk f' -> J f ->
  (forall k, has_slot k f = true -> has_slot k f' = true) /\
  (forall k, single_kind d = Some k -> has_slot k f = false /\ has_slot k f' = true).
Proof.
  intros H HJ. destruct (one_decl _ _ _ _ H HJ) as (_ & _ & R & S & W).
  assert (HS : opt_is_some (f_start f) = true -> opt_is_some (f_start f') = true) by (destruct S as [->|[-> _]]; [auto|discriminate]).
  assert (HW : opt_is_some (f_wild f) = true -> opt_is_some (f_wild f') = true) by (destruct W as [->|[-> _]]; [auto|discriminate]).
  split.
  - intros k Hk. destruct k as [|[|[|[|[|[|[|[|[|[|[|k]]]]]]]]]]]; cbn in *; auto;
      destruct d; cbn in R; injection R; intros; repeat match goal with E : _ f' = _ |- _ => rewrite E end; auto.
  - intros k Hk. destruct d; cbn in Hk; try discriminate; injection Hk as <-; cbn [parse_one_decl] in H; cbn [has_slot];
      (destruct (opt_is_some _) eqn:Eo in H; [discriminate|]); (split; [exact Eo|]);
      try (injection H as <-; reflexivity).
    + destruct (is_nonterminal_ident id); [|discriminate]. apply gbind_ok in H as ([s f1] & H1 & H). injection H as <-. reflexivity.
    + destruct (is_terminal_ident id); [|discriminate]. apply gbind_ok in H as ([s f1] & H1 & H). injection H as <-. reflexivity.
Qed.

(** Nothing that may be given once is given twice. *)
Lemma singles_fold fuel ds : forall f f', gfold (parse_one_decl fuel) ds f = GOk f' -> J f ->
  forall k i j d e, nth_error ds i = Some d -> nth_error ds j = Some e -> single_kind d = Some k -> single_kind e = Some k ->
  i = j /\ has_slot k f = false.
Proof.
  induction ds as [|d0 ds IH]; intros f f' H HJ k i j d e Hi Hj Kd Ke; [now destruct i|]. cbn [gfold] in H.
  apply gbind_ok in H as (f1 & H1 & H). destruct (slot_step _ _ _ _ H1 HJ) as [S1 S2]. destruct (one_decl _ _ _ _ H1 HJ) as (J1 & _).
  specialize (IH f1 f' H J1 k). destruct i as [|i], j as [|j]; cbn in Hi, Hj.
  - injection Hi as ->. split; auto. now apply S2.
  - injection Hi as ->. exfalso. destruct (S2 k Kd) as [_ E]. destruct (IH j j e e Hj Hj Ke Ke) as [_ E']. congruence.
  - injection Hj as ->. exfalso. destruct (S2 k Ke) as [_ E]. destruct (IH i i d d Hi Hi Kd Kd) as [_ E']. congruence.
  - destruct (IH i j d e Hi Hj Kd Ke) as [-> E]. split; auto. destruct (has_slot k f) eqn:Eh; auto. rewrite (S1 k Eh) in E. discriminate.
Qed.

(** A list of declarations accepted up to and including [d] *)
Lemma decls_split fuel l1 d l2 f : gfold (parse_one_decl fuel) (l1 ++ d :: l2) fe_init = GOk f ->
  exists f1 f2, DI l1 f1 /\ parse_one_decl fuel f1 d = GOk f2.
Proof.
  rewrite gfold_app. intros H. apply gbind_ok in H as (f1 & H1 & H). cbn [gfold] in H. apply gbind_ok in H as (f2 & H2 & _).
  exists f1, f2. split; auto. eapply decls_DI; eauto.
Qed.

Lemma type_once fuel l1 na n t l2 f : gfold (parse_one_decl fuel) (l1 ++ DType na n t :: l2) fe_init = GOk f -> type_of l1 n = None.
Proof.
  intros H. apply decls_split in H as (f1 & f2 & D & H). pose proof (di_ai _ _ D) as A. cbn [parse_one_decl] in H.
  apply gbind_ok in H as (k & Hk & H). apply gbind_ok in H as ([s f3] & Hn & H).
  assert (Hfit : fits_kind k n /\ k <> NMulti).
  { destruct (is_terminal_ident n) eqn:U; [injection Hk as <-; split; [exact U|discriminate]|]. destruct (is_nonterminal_ident n) eqn:L; [|discriminate].
    destruct (0 <? na); [discriminate|]. injection Hk as <-. split; [exact L|discriminate]. }
  destruct Hfit as [Hfit Hk']. destruct (AI_new _ _ _ _ f1 n k s f3 A Hfit (or_introl Hk') Hn) as (A1 & _ & N1 & _).
  destruct (opt_is_some _) eqn:Eo; [discriminate|]. apply name_sym in N1 as (y & Hy & Ey). rewrite (get_sym_nth _ _ _ Hy) in Eo. apply none_if_some in Eo.
  assert (Hne : n <> "") by (intros ->; destruct k; simpl in Hfit; try discriminate; contradiction).
  destruct (ai_sym _ _ _ _ _ A1 _ _ Hy) as (_ & P2 & _); [congruence|]. rewrite Ey in P2. congruence.
Qed.

Lemma assoc_fresh tf ff cf a ids : forall pf f f', AI pf tf ff cf f ->
  gfold (fun f tok => if is_terminal_ident tok then
          '(s, f1) <-! symbol_new f tok NTerm ;
          if opt_is_some (sy_prec (get_sym f1 s)) then GErr EPrecDup
          else GOk (set_syms f1 (upd (f_syms f1) s (sym_set_prec (Some (f_prec f1, a)))))
        else GErr EPrecNonTerm) ids f = GOk f' ->
  NoDup ids /\ forall n, In n ids -> pf n = None.
Proof.
  induction ids as [|id ids IH]; intros pf f f' A H; [split; [constructor|intros n []]|].
  pose proof H as Hall. cbn [gfold] in H. apply gbind_ok in H as (f2 & H2 & H). pose proof H2 as Hone.
  destruct (is_terminal_ident id) eqn:U; [|discriminate]. apply gbind_ok in H2 as ([s f1] & Hn & H2).
  destruct (AI_term _ _ _ _ f id s f1 A U Hn) as (A1 & _ & N1 & _). destruct (opt_is_some _) eqn:Eo; [discriminate|]. clear H2.
  apply name_sym in N1 as (y & Hy & Ey). rewrite (get_sym_nth _ _ _ Hy) in Eo. apply none_if_some in Eo.
  assert (Hne : sy_name y <> "") by (rewrite Ey; intros ->; now apply upper_empty in U).
  destruct (ai_sym _ _ _ _ _ A1 _ _ Hy Hne) as (P1 & _). rewrite Ey in P1. assert (P0 : pf id = None) by congruence.
  destruct (AI_assoc tf ff cf a [id] pf f f2 A) as (A2 & _); [cbn [gfold]; rewrite U, Hn; cbn [gbind]; rewrite (get_sym_nth _ _ _ Hy), Eo; cbn [opt_is_some]; cbn [gbind]; rewrite Hn in Hone; cbn [gbind] in Hone; rewrite (get_sym_nth _ _ _ Hy), Eo in Hone; cbn [opt_is_some] in Hone; now injection Hone as <-|].
  destruct (IH _ f2 f' A2 H) as [ND HF]. split.
  - constructor; auto. intros Hin. apply HF in Hin. cbn beta in Hin. rewrite P0, listed_cons, String.eqb_refl in Hin. discriminate.
  - intros n [<-|Hin]; auto. apply HF in Hin. cbn beta in Hin. now destruct (pf n).
Qed.

Lemma assoc_once fuel l1 a ids l2 f : gfold (parse_one_decl fuel) (l1 ++ DAssoc a ids :: l2) fe_init = GOk f ->
  NoDup ids /\ forall n, In n ids -> assoc_of l1 n = None.
Proof.
  intros H. apply decls_split in H as (f1 & f2 & D & H). pose proof (di_ai _ _ D) as A. pose proof (ai_fi _ _ _ _ _ A) as F. cbn [parse_one_decl] in H.
  set (f0 := set_precno f1 (S (f_prec f1))) in *. assert (F0 : FI f0) by (fi_same F).
  assert (A0 : AI (assoc_of l1) (type_of l1) (fallback_of l1) (class_of l1) f0) by (eapply AI_syms; [exact A|reflexivity|reflexivity|exact F0]).
  eapply assoc_fresh; eauto.
Qed.

Lemma fallback_fresh pf tf cf fb fbs syms : forall ids ff f f', AI pf tf ff cf f -> Forall2 (name_at f) syms ids -> Forall (fun n => upper n) ids -> name_at f fbs fb -> upper fb ->
  gfold (fun f s => if opt_is_some (sy_fb (get_sym f s)) then GErr EFallbackDup
          else GOk (set_has_fb (set_syms f (upd (f_syms f) s (sym_set_fb (Some fbs)))) true)) syms f = GOk f' ->
  NoDup ids /\ forall n, In n ids -> ff n = None.
Proof.
  induction syms as [|s syms IH]; intros ids ff f f' A Hids Hu Hfb Ufb H; inversion Hids as [|? id ? ids' Hid Hids']; subst; [split; [constructor|intros n []]|].
  cbn [gfold] in H. apply gbind_ok in H as (f2 & H2 & H). pose proof H2 as Hone. destruct (opt_is_some _) eqn:Eo; [discriminate|]. clear H2. inversion Hu as [|? ? U Us]; subst.
  pose proof Hid as Hid'. apply name_sym in Hid' as (y & Hy & Ey). rewrite (get_sym_nth _ _ _ Hy) in Eo. assert (Hne : sy_name y <> "") by (rewrite Ey; intros ->; now apply upper_empty in U).
  destruct (ai_sym _ _ _ _ _ A _ _ Hy Hne) as (_ & _ & P3 & _). rewrite Ey in P3. destruct (sy_fb y) as [q|] eqn:Eq; [discriminate|]. cbn in P3.
  destruct (AI_fallback pf tf cf fb fbs [s] [id] ff f f2 A) as (A2 & G2 & l & hf & E2); auto.
  { cbn [gfold]. rewrite (get_sym_nth _ _ _ Hy), Eq. cbn [opt_is_some gbind]. exact Hone. }
  assert (N2 : forall i n, name_at f i n -> name_at f2 i n) by (intros i n Hi; exact (ext_nth _ _ _ _ (proj1 G2) Hi)).
  destruct (IH ids' _ f2 f' A2) as [ND HF]; auto.
  { eapply f2_impl; [|exact Hids']. auto. }
  split.
  - constructor; auto. intros Hin. apply HF in Hin. cbn beta in Hin. rewrite <- P3, listed_cons, String.eqb_refl in Hin. discriminate.
  - intros n [<-|Hin]; auto. apply HF in Hin. cbn beta in Hin. now destruct (ff n).
Qed.

Lemma fallback_once fuel l1 fb ids l2 f : gfold (parse_one_decl fuel) (l1 ++ DFallback fb ids :: l2) fe_init = GOk f ->
  NoDup ids /\ forall n, In n ids -> fallback_of l1 n = None.
Proof.
  intros H. apply decls_split in H as (f1 & f' & D & H). pose proof (di_ai _ _ D) as A. cbn [parse_one_decl] in H.
  apply gbind_ok in H as ([syms f2] & Hg & H). destruct (AI_terms _ _ _ _ _ _ _ _ _ A Hg) as (A1 & G1 & T1 & U1 & l & ->).
  destruct (is_terminal_ident fb) eqn:U; [|discriminate]. apply gbind_ok in H as ([fbs f2] & Hn & H).
  destruct (AI_term _ _ _ _ _ fb fbs f2 A1 U Hn) as (A2 & G2 & N2 & l2' & ->). apply gbind_ok in H as (_ & _ & H).
  assert (T2 : Forall2 (name_at (set_syms (set_syms f1 l) l2')) syms ids) by (eapply f2_impl; [|exact T1]; intros a b Hab; exact (ext_nth _ _ _ _ (proj1 G2) Hab)).
  eapply fallback_fresh; eauto.
Qed.

Theorem decls_cnt fuel ds f : gfold (parse_one_decl fuel) ds fe_init = GOk f ->
  euse f = 1 + cnt (flat_map mention ds) /\ f_stack_limit f = limit_of ds.
Proof. intros H. destruct (decls_kept fuel ds _ _ H J_init) as (_ & U & L). auto. Qed.
