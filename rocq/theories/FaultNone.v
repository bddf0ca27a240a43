(** A grammar that is expanded has none of the faults (the converse half of C38). *)
From Verif Require Import Base Syntax BaseFacts FrontEnd First States Actions Tables Runtime User Spec WfGrammar FirstFacts ClosureFacts AutoFacts LalrFacts ActFacts GroupFacts CompFacts TabFacts PackFacts LookFacts PipeFacts RunFacts FrontFacts
  BuildFacts DeclSpec DeclFacts GramFacts LangFacts MeanSpec TypeFacts TypeDecl Main Claims Claims2 Claims5 DeclMore FaultSpec FaultFacts FaultAct FaultBack.
Open Scope string_scope. Open Scope nat_scope. Open Scope list_scope.

(** ** The declarations *)
Section Front.
Context (fuel : nat) (ds : list decl) (f : fe).
Hypothesis Hd : gfold (parse_one_decl fuel) ds fe_init = GOk f.

Lemma each_decl d : In d ds -> exists f1 f2, parse_one_decl fuel f1 d = GOk f2.
Proof. intros H. exact (GramFacts.gfold_each _ _ _ _ Hd _ H). Qed.

Lemma not_twice k : ~ twice k ds.
Proof. intros (i & j & d & e & L & Hi & Hj & Ki & Kj). destruct (singles_fold _ _ _ _ Hd J_init k i j d e Hi Hj Ki Kj) as [-> _]. lia. Qed.

Lemma terms_ok e0 ids ss g ss' g' : gfold (fun '(ss, f) tok => if is_terminal_ident tok then '(s, f') <-! symbol_new f tok NTerm ; GOk (ss ++ [s], f') else GErr e0) ids (ss, g) = GOk (ss', g') ->
  forall n, In n ids -> is_terminal_ident n = true.
Proof. intros H n Hn. destruct (GramFacts.gfold_each _ _ _ _ H _ Hn) as ([s1 f1] & s2 & HX). cbn in HX. destruct (is_terminal_ident n); auto. discriminate. Qed.

Lemma elem_ok g e x g' : rhs_elem_sym g e = GOk (x, g') ->
  match e with ([n], _, _) => is_terminal_ident n = true \/ is_nonterminal_ident n = true | (ns, _, _) => forall n, In n ns -> is_terminal_ident n = true end.
Proof.
  destruct e as [[toks o] al]. unfold rhs_elem_sym. destruct toks as [|tok [|tok2 toks]]; [discriminate| |]; intros H.
  - destruct (is_terminal_ident tok); auto. destruct (is_nonterminal_ident tok); auto. discriminate.
  - apply gbind_ok in H as ([mt f1] & _ & H). apply gbind_ok in H as ([ss f2] & H & _). eapply terms_ok; eauto.
Qed.

Lemma rule_decl r : In r (rules_in ds) -> In (DRule (d_lhs r) (d_rhs r) (d_code r) (d_prec r)) ds.
Proof.
  clear Hd. induction ds as [|d l IH]; cbn; [contradiction|]. destruct d; cbn; try (intros H; right; now apply IH). intros [<-|H]; [now left|]. right. now apply IH.
Qed.
Lemma rule_ok_decl r : In r (rules_in ds) -> is_nonterminal_ident (d_lhs r) = true /\
  (forall e, In e (d_rhs r) -> match e with ([n], _, _) => is_terminal_ident n = true \/ is_nonterminal_ident n = true | (ns, _, _) => forall n, In n ns -> is_terminal_ident n = true end) /\
  (forall n, d_prec r = Some n -> is_terminal_ident n = true).
Proof.
  intros H. apply rule_decl in H. destruct (each_decl _ H) as (f1 & f2 & HX). cbn [parse_one_decl] in HX. destruct (is_nonterminal_ident (d_lhs r)); [|discriminate].
  apply gbind_ok in HX as ([l g1] & _ & HX). apply gbind_ok in HX as ([rr g2] & Hr & HX). apply gbind_ok in HX as ([ps g3] & Hp & _). splits; auto.
  - intros e He. destruct (GramFacts.gfold_each _ _ _ _ Hr _ He) as ([s1 h1] & s2 & HY). cbn beta iota in HY. apply gbind_ok in HY as ([x h2] & HY & _). eapply elem_ok; eauto.
  - intros n E. rewrite E in Hp. destruct (is_terminal_ident n); auto. discriminate.
Qed.

Lemma stack_type_kept l : forall g g', gfold (parse_one_decl fuel) l g = GOk g' -> J g -> f_stack_type g <> None -> f_stack_type g' <> None.
Proof.
  induction l as [|d l IH]; intros g g' H HJ Hs; cbn [gfold] in H; [now injection H as <-|]. apply gbind_ok in H as (g1 & H1 & H).
  pose proof (one_decl _ _ _ _ H1 HJ) as (J1 & _ & R & _). apply (IH _ _ H J1). destruct d; cbn in R; try (injection R; intros; congruence).
  cbn [parse_one_decl] in H1. destruct (f_stack_type g); [discriminate|contradiction].
Qed.
Lemma stack_once l1 n t l2 m u : ds = l1 ++ DStackSize n t :: l2 -> In (DStackSize m (Some u)) l1 -> False.
Proof.
  intros E Hin. apply in_split in Hin as (a & b & ->). pose proof Hd as H. rewrite E, !gfold_app in H. apply gbind_ok in H as (f1 & H1 & H). apply gbind_ok in H1 as (f0 & H0 & H1). cbn [gfold] in H1, H.
  apply gbind_ok in H1 as (f0' & H0' & H1). apply gbind_ok in H as (f2 & H2 & _). destruct (decls_kept _ _ _ _ H0 J_init) as (J0 & _). destruct (one_decl _ _ _ _ H0' J0) as (J0' & _ & R & _).
  assert (HN : f_stack_type f1 <> None) by (apply (stack_type_kept _ _ _ H1 J0'); cbn in R; injection R; intros; congruence). cbn [parse_one_decl] in H2. destruct (f_stack_type f1); [discriminate|contradiction].
Qed.

Lemma check_ok g syms : forall k fb, fallback_check k g syms fb = GOk tt -> forall b j, sy_fb (get_sym g fb) = Some b -> fbs g b j -> ~ In j syms.
Proof.
  induction k as [|k IH]; intros fb H b j Hb Hj; cbn [fallback_check] in H; [discriminate|]. rewrite Hb in H. destruct (smem b syms) eqn:Em; [discriminate|].
  assert (HC : j = b \/ exists c, sy_fb (get_sym g b) = Some c /\ fbs g c j).
  { clear -Hj. induction Hj as [|y z Hy IH (s & Hs & Hz)]; auto. right. destruct IH as [->|(c & Hc & Hy')].
    - exists z. split; [unfold get_sym; now rewrite (nth_error_nth _ _ _ Hs)|constructor].
    - exists c. split; auto. econstructor; eauto. exists s. auto. }
  destruct HC as [->|(c & Hc & Hcj)]; [|now apply (IH b H c j)]. intros Hin. apply smem_true in Hin. congruence.
Qed.

Lemma falls_fb l1 f2 i n m : AI (assoc_of l1) (type_of l1) (fallback_of l1) (class_of l1) f2 -> name_at f2 i n -> n <> "" -> falls l1 n m ->
  exists j, fbs f2 i j /\ name_at f2 j m /\ m <> "".
Proof.
  intros A2 Hi Hn H. induction H as [|b c Hb IH Hc]; [exists i; splits; auto; constructor|]. destruct IH as (j & H1 & H2 & H3).
  pose proof (name_sym _ _ _ H2) as (s & Hs & Es). destruct (ai_sym _ _ _ _ _ A2 _ _ Hs) as (_ & _ & P & _); [congruence|]. rewrite Es, Hc in P.
  destruct (sy_fb s) as [q|] eqn:Eq; [|discriminate]. cbn in P. injection P as P. destruct (fi_syms _ (ai_fi _ _ _ _ _ A2) _ _ Hs) as [_ K]. destruct (K q Eq) as (_ & (x & Hx & Ux) & _).
  assert (x = c) by (rewrite <- P; symmetry; now apply name_at_nm). subst x. exists q. splits; auto; [|now apply upper_ne]. econstructor; [exact H1|exists s; auto].
Qed.
Lemma no_loop l1 fb ids l2 b n : ds = l1 ++ DFallback fb ids :: l2 -> fallback_of l1 fb = Some b -> falls l1 b n -> In n ids -> False.
Proof.
  intros E Hb Hf Hn. pose proof Hd as H. rewrite E in H. destruct (decls_split _ _ _ _ _ H) as (f1 & f2 & D & HX). pose proof (di_ai _ _ D) as A. cbn [parse_one_decl] in HX.
  apply gbind_ok in HX as ([syms g1] & Hg & HX). destruct (AI_terms _ _ _ _ _ _ _ _ _ A Hg) as (A1 & G1 & T1 & U1 & l & ->).
  destruct (is_terminal_ident fb) eqn:U; [|discriminate]. apply gbind_ok in HX as ([fbx g2] & Hnew & HX). destruct (AI_term _ _ _ _ _ fb fbx g2 A1 U Hnew) as (A2 & G2 & N2 & l3 & ->).
  assert (T2 : Forall2 (name_at (set_syms (set_syms f1 l) l3)) syms ids) by (eapply f2_impl; [|exact T1]; intros x y Hab; exact (ext_nth _ _ _ _ (proj1 G2) Hab)).
  apply gbind_ok in HX as ([] & Hc & _). set (g2 := set_syms (set_syms f1 l) l3) in *. assert (Hne : fb <> "") by now apply upper_ne.
  destruct (falls_fb l1 g2 fbx fb b A2 N2 Hne) as (jb & Hjb & Nb & Neb); [econstructor; [constructor|exact Hb]|].
  pose proof (name_sym _ _ _ N2) as (s & Hs & Es). destruct (ai_sym _ _ _ _ _ A2 _ _ Hs) as (_ & _ & P & _); [congruence|]. rewrite Es, Hb in P. destruct (sy_fb s) as [q|] eqn:Eq; [|discriminate].
  change (Some (nm g2 q) = Some b) in P. injection P as P. destruct (fi_syms _ (ai_fi _ _ _ _ _ A2) _ _ Hs) as [_ K]. destruct (K q Eq) as (_ & (x & Hx & Ux) & _).
  assert (x = b) by (rewrite <- P; symmetry; now apply name_at_nm). subst x.
  destruct (falls_fb l1 g2 q b n A2 Hx Neb Hf) as (j & Hj & Nj & _).
  apply (check_ok g2 syms fuel fbx Hc q j); auto; [now rewrite (get_sym_nth _ _ _ Hs)|].
  destruct (forall2_in_r _ _ _ T2 _ Hn) as (j' & Hj' & Nj'). rewrite (fi_uniq _ (ai_fi _ _ _ _ _ A2) j j' n Nj Nj'); auto.
  apply upper_ne. exact (terms_ok _ _ _ _ _ _ Hg n Hn).
Qed.
End Front.

(** ** %token and %parser are kept *)
Lemma token_kept fuel ds : forall f f', gfold (parse_one_decl fuel) ds f = GOk f' -> J f ->
  (forall n gs, f_token f = Some (n, gs) \/ In (DToken n gs) ds -> f_token f' = Some (n, gs)) /\
  (forall n gs, f_parser f = Some (n, gs) \/ In (DParser n gs) ds -> f_parser f' = Some (n, gs)).
Proof.
  induction ds as [|d ds IH]; intros f f' H HJ; cbn [gfold] in H; [injection H as <-; split; intros n gs [E|[]]; auto|]. apply gbind_ok in H as (f1 & H1 & H).
  pose proof (one_decl _ _ _ _ H1 HJ) as (J1 & _ & R & _). destruct (IH _ _ H J1) as [A1 A2].
  split; intros n gs E; [apply A1|apply A2]; (destruct E as [E|[E|E]]; [left|left; subst d; cbn in R; injection R; intros; congruence|now right]).
  - destruct d; cbn in R; injection R; intros; try congruence. cbn [parse_one_decl] in H1. rewrite E in H1. discriminate.
  - destruct d; cbn in R; injection R; intros; try congruence. cbn [parse_one_decl] in H1. rewrite E in H1. discriminate.
Qed.

(** ** The checks of generate_source *)
Section Gen.
Context (ds : list decl) (g : grammar) (opts : list (nat * nat)) (DE : declared ds g opts) (W : wf_grammar g).
Hypothesis FU : forall n c, fallback_of ds n = Some c -> upper n.
Hypothesis WU : forall w, wildcard_of ds = Some w -> upper w.
Hypothesis TK : forall n gs, In (DToken n gs) ds -> f_token (g_fe g) = Some (n, gs).
Hypothesis PK : forall n gs, In (DParser n gs) ds -> f_parser (g_fe g) = Some (n, gs).
Notation n := (List.length (g_syms g)).
Context (p : pst) (t : tables).
Hypothesis HG : generate_source g p = GOk t.

Lemma wild_is x : wildcard_of ds = Some x -> exists w, g_wild g = Some w /\ at_name g w x.
Proof. intros H. pose proof (de_wild _ _ _ DE) as D. rewrite H in D. destruct (g_wild g) as [w|]; [|contradiction]. eauto. Qed.
Lemma wild_plain w : g_wild g = Some w -> has_type g w = false.
Proof. intros E. pose proof HG as H. unfold generate_source in H. apply gbind_ok in H as (x & H & _). rewrite E in H. destruct (has_type g w); auto. discriminate. Qed.

(** Where the elements of a declared rule are in the grammar *)
Lemma rhs_to r e : In r (rules_in ds) -> In e (d_rhs r) -> exists ru X b, In ru (g_rules g) /\ In (X, b) (r_rhs ru) /\ elem_sym g opts e X /\
  (alias_of e = true \/ d_code r = None /\ raw_type ds (d_lhs r) <> None /\ elem_typed ds e = true -> b = true).
Proof.
  intros Hr He. destruct (de_rules _ _ _ DE) as (rs & HR & HF). destruct (GramFacts.forall2_in_l _ _ _ HF _ Hr) as (ru & Hru & RM).
  assert (HE : Forall2 (fun e p => elem_sym g opts e (fst p)) (d_rhs r) (r_rhs ru)).
  { pose proof (rm_rhs _ _ _ _ RM) as H. clear -H. revert H. generalize (d_rhs r). induction (r_rhs ru) as [|p l IH]; intros es H; inversion H; subst; constructor; auto. }
  assert (HT : forall e p, elem_sym g opts e p -> has_type g p = elem_typed ds e).
  { intros [[toks o] al] q. unfold elem_sym, elem_typed, has_type. destruct toks as [|tok [|tok2 toks]]; [intros []| |].
    - intros [Hid H]. destruct o; [destruct H as (Y & Hin & _); now rewrite (de_type_opt _ _ _ DE _ _ Hin)|now rewrite (de_type _ _ _ DE _ _ H Hid)].
    - intros (_ & H & _). now rewrite (de_type_anon _ _ _ DE _ H). }
  assert (HB : exists X b, In (X, b) (r_rhs ru) /\ elem_sym g opts e X /\ (map snd (r_rhs ru) = map alias_of (d_rhs r) -> b = alias_of e) /\
    (map snd (r_rhs ru) = map (fun p => has_type g (fst p)) (r_rhs ru) -> b = has_type g X)).
  { clear -HE He. revert He. induction HE as [|x [X b] es l Hx HE IH]; intros He; [destruct He|]. destruct He as [->|He].
    - exists X, b. splits; auto; [now left|cbn; congruence|cbn; congruence].
    - destruct (IH He) as (Y & c & H1 & H2 & H3 & H5). exists Y, c. splits; auto; [now right|cbn; intros E; apply H3; congruence|cbn; intros E; apply H5; congruence]. }
  destruct HB as (X & b & HX & HS & B1 & B2). exists ru, X, b. splits; auto; [rewrite HR; apply in_app_iff; now left|].
  pose proof (rm_code _ _ _ _ RM) as HC. intros [HA|(HN & HL & HT')].
  - destruct (d_code r); [destruct HC as [_ HC]; now rewrite (B1 HC)|]. destruct HC as [(_ & _ & HC)|(_ & _ & HC & _)]; [now rewrite (B1 HC)|].
    rewrite Forall_forall in HC. specialize (HC _ He). congruence.
  - rewrite HN in HC. destruct HC as [(_ & HC & _)|(_ & _ & _ & HC & _)].
    + exfalso. apply HL. unfold has_type in HC. rewrite (de_type _ _ _ DE _ _ (rm_lhs _ _ _ _ RM) (or_intror (rm_low _ _ _ _ RM))) in HC. destruct (raw_type ds (d_lhs r)); auto. discriminate.
    + now rewrite (B2 HC), (HT _ _ HS).
Qed.
Lemma opt_to r m al : In r (rules_in ds) -> In ([m], true, al) (d_rhs r) -> (upper m \/ lower m) /\ exists ru X, In ru (g_rules g) /\ In (X, true) (r_rhs ru) /\ at_name g X m.
Proof.
  intros Hr He. destruct (rhs_to _ _ Hr He) as (_ & X & _ & _ & _ & (Hid & Y & HY & HN) & _). split; auto. destruct (de_rules _ _ _ DE) as (rs & HR & _).
  exists (mkRule X [(Y, true)] COptSome None (rhs_sym_prec g Y)), Y. splits; auto; [|now left]. rewrite HR. apply in_app_iff. right. apply in_flat_map. exists (Y, X). split; auto. right. now left.
Qed.

Lemma codes_ok : exists m syms dts fb, type_symbols g = GOk (m, syms, dts) /\ fallback_table syms dts = GOk fb /\ forall ru, In ru (g_rules g) -> exists rr, translate_code g dts ru = GOk rr.
Proof.
  pose proof HG as H. unfold generate_source in H. apply gbind_ok in H as (w & _ & H). apply gbind_ok in H as ([[m syms] dts] & HT & H).
  do 6 apply gbind_ok in H as (? & _ & H). apply gbind_ok in H as (fb & Hfb & H). apply gbind_ok in H as (rr & Hrr & _). exists m, syms, dts, fb. splits; auto.
  intros ru Hru. destruct (GramFacts.gfold_each _ _ _ _ Hrr _ Hru) as (s1 & s2 & HX). apply gbind_ok in HX as (q & HX & _). eauto.
Qed.

Lemma gen_wild_alias : ~ fault ds EWildAlias.
Proof.
  intros (x & o & al & Hx & (r & Hr & He) & HO). destruct (wild_is _ Hx) as (w & Hw & Aw). pose proof (WU _ Hx) as Ux.
  assert (HC : exists ru, In ru (g_rules g) /\ In (w, true) (r_rhs ru)).
  { destruct o.
    - destruct (opt_to _ _ _ Hr He) as (_ & ru & X & H1 & H2 & H3). exists ru. split; auto. now rewrite (de_uniq _ _ _ DE _ _ _ Aw H3 (upper_nonempty _ Ux)).
    - destruct (rhs_to _ _ Hr He) as (ru & X & b & H1 & H2 & (_ & HS) & HB). exists ru. split; auto. rewrite (de_uniq _ _ _ DE _ _ _ Aw HS (upper_nonempty _ Ux)).
      rewrite <- HB; auto. left. destruct HO as [HO|HO]; [discriminate|]. destruct al; [auto|contradiction]. }
  destruct HC as (ru & Hru & HX). destruct codes_ok as (_ & _ & dts & _ & _ & _ & HC). destruct (HC _ Hru) as (rr & HR). unfold translate_code in HR.
  apply gbind_ok in HR as (? & _ & HR). apply gbind_ok in HR as (? & HR & _). destruct (GramFacts.gfold_each _ _ _ _ HR _ HX) as (? & ? & HY). cbn in HY. rewrite Hw in HY. cbn in HY. rewrite Nat.eqb_refl in HY. discriminate.
Qed.
Lemma gen_wild_type : ~ fault ds EWildType.
Proof.
  intros (x & Hx & HT). destruct (wild_is _ Hx) as (w & Hw & Aw). apply wild_plain in Hw. unfold has_type in Hw. rewrite (de_type _ _ _ DE _ _ Aw (or_introl (WU _ Hx))) in Hw.
  destruct (raw_type ds x); auto. discriminate.
Qed.
Lemma gen_token : ~ fault ds ETokenNotEmpty.
Proof.
  intros (k & gs & H & Hk). apply TK in H. pose proof HG as HX. unfold generate_source in HX. apply gbind_ok in HX as (w & _ & HX). apply gbind_ok in HX as ([[m syms] dts] & _ & HX).
  rewrite H in HX. cbn [fst snd] in HX. destruct (Nat.eqb_spec k 0); [contradiction|discriminate].
Qed.
Lemma gen_parser : ~ fault ds EParserNotEmpty.
Proof.
  intros (k & gs & H & Hk). apply PK in H. pose proof HG as HX. unfold generate_source in HX. apply gbind_ok in HX as (w & _ & HX). apply gbind_ok in HX as ([[m syms] dts] & _ & HX).
  apply gbind_ok in HX as (? & _ & HX). rewrite H in HX. cbn [fst snd] in HX. destruct (Nat.eqb_spec k 0); [contradiction|discriminate].
Qed.
Lemma gen_generics : ~ fault ds EGenerics.
Proof.
  intros (k & gs & l & hs & x & H1 & H2 & Hx & Hn). apply TK in H1. apply PK in H2. pose proof HG as HX. unfold generate_source in HX. apply gbind_ok in HX as (w & _ & HX). apply gbind_ok in HX as ([[m syms] dts] & _ & HX).
  apply gbind_ok in HX as (? & _ & HX). apply gbind_ok in HX as (? & _ & HX). apply gbind_ok in HX as (? & HX & _). rewrite H1, H2 in HX. cbn [snd] in HX. destruct (forallb _ gs) eqn:E; [|discriminate].
  rewrite forallb_forall in E. specialize (E _ Hx). apply existsb_exists in E as (y & Hy & E). apply String.eqb_eq in E. now subst y.
Qed.
Lemma at_some a : (exists i, at_name g i a) \/ forall i, ~ at_name g i a.
Proof.
  destruct (find (fun s => String.eqb (sy_name s) a) (g_syms g)) as [s|] eqn:E.
  - apply find_some in E as [H E]. apply String.eqb_eq in E. apply In_nth_error in H as (i & H). left. exists i, s. auto.
  - right. intros i (s & H & En). apply nth_error_In in H. pose proof (find_none _ _ E _ H) as HX. cbn in HX. rewrite En, String.eqb_refl in HX. discriminate.
Qed.
Lemma named_type a : a < n -> upper (gname g a) -> dtype g a = name_type ds (gname g a).
Proof. intros La Ua. apply (dtype_name ds g opts DE W); auto. now apply gname_at. Qed.
Lemma gen_fallback : flat_decls ds -> ~ fault ds EFallbackType.
Proof.
  intros FD (a & c & Hac & HN & HE). assert (FL : flat g) by (apply (decls_flat ds g opts DE W); auto). destruct codes_ok as (m & syms & dts & fb & HT & HF & _).
  pose proof (FU _ _ Hac) as Ua. pose proof (type_symbols_inv g W FL wild_plain _ _ _ HT) as I.
  destruct (at_some a) as [(i & Hi)|Hno].
  2:{ destruct (de_out _ _ _ DE a (upper_nonempty _ Ua) Hno) as (_ & E & _). congruence. }
  pose proof (at_gname _ _ _ Hi) as Ei. destruct Hi as (s & Hs & Es). assert (Li : i < n) by (apply nth_error_Some; congruence).
  assert (Hg : gsym g i = s) by (unfold gsym; now apply nth_error_nth).
  destruct (de_sym _ _ _ DE _ _ Hs) as (_ & EF & _); [rewrite Es; now apply upper_nonempty|]. rewrite Es, Hac in EF. destruct (sy_fb s) as [j|] eqn:Ej; [|discriminate]. cbn in EF. injection EF as EF.
  pose proof (de_fbname _ _ _ DE _ _ _ Hs Ej) as Uc. destruct (wg_fb g W _ _ _ Hs Ej) as (_ & Lj & _).
  destruct (ti_kind _ _ _ _ _ I i) as (_ & _ & E3). rewrite Hg, Ej in E3.
  pose proof (named_type _ Lj Uc) as Tj. rewrite EF in Tj. assert (Ti : dtype g i = name_type ds a) by (rewrite <- Ei; apply named_type; auto; now rewrite Ei).
  destruct (fb_checked _ _ _ i j HF E3) as [H|H].
  - apply HN. rewrite <- Tj. now apply (zero_number g W FL wild_plain _ _ _ _ HT Lj).
  - apply HE. rewrite <- Tj, <- Ti. symmetry. now apply (same_number g W FL wild_plain _ _ _ _ _ HT Lj Li).
Qed.
Lemma gen_compound : flat_decls ds -> ~ fault ds ECompoundAlias.
Proof.
  intros FD (r & e & m & ms & o & Hr & He & HR & HC & Ho & HN). assert (FL : flat g) by (apply (decls_flat ds g opts DE W); auto).
  assert (HX : exists ru X ks, In ru (g_rules g) /\ In (X, true) (r_rhs ru) /\ X < n /\ kind_at g X = Some (KMulti ks) /\ map (gname g) ks = m :: ms /\ choice_type ds e = dtype g X).
  { assert (HK : forall X x, at_name g X x -> upper x \/ lower x -> class_of ds x = Some (m :: ms) -> exists ks, kind_at g X = Some (KMulti ks) /\ map (gname g) ks = m :: ms /\ name_type ds x = dtype g X).
    { intros X x HX Hid Hx. assert (Hm : x <> "") by (destruct Hid; [now apply upper_nonempty|now apply lower_nonempty]). destruct (sym_decl _ _ _ DE _ _ HX Hm) as (_ & _ & E).
      rewrite Hx in E. assert (LX : X < n) by (destruct HX as (s & HX & _); apply nth_error_Some; congruence). unfold members in E. destruct (sy_kind (gsym g X)) as [| |ks] eqn:Ek; try discriminate. injection E as E. exists ks. splits; auto.
      - rewrite <- Ek. now apply gsym_kind_at. - symmetry. now apply (dtype_name ds g opts DE W). }
    assert (HL : forall ru X b, In ru (g_rules g) -> In (X, b) (r_rhs ru) -> X < n).
    { intros ru X b H1 H2. apply In_nth_error in H1 as [q Hq]. destruct (wg_rule g W _ _ Hq) as (_ & _ & H3). now destruct (H3 _ _ H2). }
    destruct e as [[[|x [|y toks]] q] al]; [destruct (rhs_to _ _ Hr He) as (? & ? & ? & _ & _ & [] & _)| |].
    - cbn in HC. destruct q.
      + destruct (opt_to _ _ _ Hr He) as (Hid & ru & X & H1 & H2 & H3). destruct (HK _ _ H3 Hid HC) as (ks & K1 & K2 & K3). exists ru, X, ks. splits; eauto.
      + destruct (rhs_to _ _ Hr He) as (ru & X & b & H1 & H2 & (Hid & HS) & HB). destruct (HK _ _ HS Hid HC) as (ks & K1 & K2 & K3). exists ru, X, ks.
        rewrite HB in H2; [splits; eauto|]. destruct HR as [HR|[(? & ? & E)|HR]]; auto. discriminate.
    - destruct (rhs_to _ _ Hr He) as (ru & X & b & H1 & H2 & HS & HB). assert (b = true) as -> by (apply HB; destruct HR as [HR|[(? & ? & E)|HR]]; auto; discriminate).
      pose proof HS as (_ & _ & ks & Hk & HF). assert (ks <> []) by (intros ->; inversion HF).
      destruct (choice_dtype ds g opts DE W WU _ _ ks FL HS Hk) as [E1 E2]; auto. rewrite HC in E1. injection E1 as E1. exists ru, X, ks. splits; eauto. }
  destruct HX as (ru & X & ks & Hru & HX & LX & Hk & EK & ET). destruct ks as [|c ks]; [discriminate|]. cbn in EK. injection EK as _ EK. rewrite <- EK in Ho. apply in_map_iff in Ho as (j & <- & Hj).
  destruct codes_ok as (tm & syms & dts & fb & HT & _ & HCo). destruct (HCo _ Hru) as (rr & Hrr). unfold translate_code in Hrr. apply gbind_ok in Hrr as (? & Hrr & _).
  destruct (GramFacts.gfold_each _ _ _ _ Hrr _ HX) as (? & ? & HY). cbn [fst snd] in HY. rewrite (kind_at_gsym _ _ _ Hk) in HY. cbn [tl] in HY. destruct (forallb _ ks) eqn:E; [|discriminate].
  rewrite forallb_forall in E. specialize (E _ Hj). apply Nat.eqb_eq in E. destruct (wg_multi g W _ _ j Hk (or_intror Hj)) as (Lj & _). pose proof (de_multi _ _ _ DE _ _ _ Hk (or_intror Hj)) as Uj.
  apply HN. rewrite ET, <- (named_type _ Lj Uj). symmetry. apply (same_number g W FL wild_plain _ _ _ _ _ HT LX Lj). auto.
Qed.
End Gen.

(** ** The whole macro *)
Section Whole.
Context (ds : list decl) (b : built).
Notation g := (bt_grammar b).
Hypothesis EX : expands ds b.

Record run_of (fuel : nat) (f0 : fe) (opts : list (nat * nat)) (p2 p3 p4 : pst) : Prop := {
  ro_decls : gfold (parse_one_decl fuel) ds fe_init = GOk f0;
  ro_rules : rules_in ds <> [];
  ro_de : declared ds g opts;
  ro_wf : wf_grammar g;
  ro_aut : Aut g p2;
  ro_acts : find_actions g p2 = GOk (p3, 0);
  ro_src : generate_source g p4 = GOk (bt_tables b);
  ro_token : f_token (g_fe g) = f_token f0 /\ f_parser (g_fe g) = f_parser f0 }.
Lemma run_exists : exists fuel f0 opts p2 p3 p4, run_of fuel f0 opts p2 p3 p4.
Proof.
  destruct EX as (fuel & ord & Ho & H). unfold build in H. apply gbind_ok in H as (f & Hf & H). destruct (read_decls _ _ _ Hf) as (f0 & Hd & RA). pose proof (new_from_decls_spec _ _ _ Hf) as D. unfold build_fe in H.
  apply gbind_ok in H as (g0 & H0 & H). apply gbind_ok in H as (g' & H1 & H). pose proof (prepared_wf _ _ _ _ D Ho H0 H1) as W. destruct (front_declared _ _ _ _ _ _ Ho Hf H0 H1) as (opts & DE).
  apply gbind_ok in H as (fi & Hfi & H). pose proof (find_first_sets_exact _ g' fi W Hfi) as F. apply gbind_ok in H as (p1 & Hp1 & H). apply gbind_ok in H as (p2 & Hp2 & H).
  pose proof (aut_main g' fi W F p1 p2 fuel fuel Hp1 Hp2) as A. apply gbind_ok in H as ([p3 nc] & H3 & H). destruct (Nat.ltb_spec 0 nc) as [Hnc|Hnc]; [discriminate|]. assert (nc = 0) as -> by lia.
  apply gbind_ok in H as (p4 & H4 & H). apply gbind_ok in H as (t & Ht & H). injection H as H. exists fuel, f0, opts, p2, p3, p4. constructor; rewrite <- ?H; cbn [bt_grammar bt_tables]; auto.
  - unfold new_from_decls in Hf. apply gbind_ok in Hf as (f0' & Hd' & Hf). rewrite Hd in Hd'. injection Hd' as <-. apply gbind_ok in Hf as ([x f'] & Hs & Hf). pose proof (di_rules _ _ (ra_di _ _ _ RA)) as HR.
    intros E. rewrite E in HR. inversion HR as [HN|]. symmetry in HN. pose proof (ra_eq _ _ _ RA) as Ef. destruct (f_rules f') eqn:Er; [discriminate|]. injection Hf as ->. subst f. cbn in Er. congruence.
  - apply normalize_rules_spec in H1 as (_ & _ & _ & _ & _ & _ & E7 & _). cbn [bt_grammar]. rewrite E7. cbn. unfold prepare in H0. apply gbind_ok in H0 as (f2 & H2 & H0). injection H0 as <-. cbn.
    apply keeps_rest in H2. now rewrite (ra_eq _ _ _ RA) in H2.
Qed.

(** An expanded grammar has no fault. *)
Theorem expanded_sound e : e <> ENotReduced -> e <> EConflicts -> (e = EFallbackType \/ e = ECompoundAlias -> flat_decls ds) -> ~ fault ds e.
Proof.
  intros N1 N2 HFL HF. destruct run_exists as (fuel & f0 & opts & p2 & p3 & p4 & [Hd HR DE W _ _ Hsrc [ER1 ER2]]).
  pose proof (each_decl _ _ _ Hd) as HE. pose proof (rule_ok_decl _ _ _ Hd) as HRU. destruct (nothing_twice ds b EX) as (_ & TT & TA & TF).
  assert (FU : forall n c, fallback_of ds n = Some c -> upper n).
  { intros n c Hn. apply GramFacts.first_of_in in Hn as (d & Hin & E). destruct d; try discriminate. destruct (listed n ids) eqn:El; [|discriminate]. apply listed_in in El.
    destruct (HE _ Hin) as (s1 & s2 & HX). cbn [parse_one_decl] in HX. apply gbind_ok in HX as ([syms f1] & HX & _). exact (terms_ok _ _ _ _ _ _ HX _ El). }
  assert (WU : forall w, wildcard_of ds = Some w -> upper w).
  { intros w Hw. apply GramFacts.first_of_in in Hw as (d & Hin & E). destruct d; try discriminate. injection E as ->.
    destruct (HE _ Hin) as (s1 & s2 & HX). cbn [parse_one_decl] in HX. destruct (opt_is_some _); [discriminate|]. destruct (is_terminal_ident w) eqn:U; [exact U|discriminate]. }
  destruct (token_kept _ _ _ _ Hd J_init) as [T1 T2].
  assert (TK : forall n gs, In (DToken n gs) ds -> f_token (g_fe g) = Some (n, gs)) by (intros; rewrite ER1; auto).
  assert (PK : forall n gs, In (DParser n gs) ds -> f_parser (g_fe g) = Some (n, gs)) by (intros; rewrite ER2; auto).
  destruct e; cbn [fault] in HF; try (now apply (not_twice _ _ _ Hd) in HF); try contradiction.
  - (* EAttrs *) destruct HF as (k & n & t & Hin & Hk & Hn). destruct (HE _ Hin) as (f1 & f2 & HX). cbn [parse_one_decl] in HX. unfold no_token in Hn. rewrite Hn in HX.
    destruct (is_nonterminal_ident n); [|discriminate]. destruct (Nat.ltb_spec 0 k); [discriminate|lia].
  - (* EBadIdent *) destruct HF as (n & Hn & Hl & [(k & t & Hin)|(o & al & r & Hr & He)]).
    + destruct (HE _ Hin) as (f1 & f2 & HX). cbn [parse_one_decl] in HX. unfold no_token in Hn. rewrite Hn, Hl in HX. discriminate.
    + destruct (HRU _ Hr) as (_ & HX & _). specialize (HX _ He). cbn in HX. unfold no_token in Hn. destruct HX; congruence.
  - (* ETypeDup *) destruct HF as (l1 & k & n & t & l2 & E & HN). apply HN. eapply TT; eauto.
  - (* EPrecNonTerm *) destruct HF as (a & ids & n & Hin & Hn & HN). destruct (HE _ Hin) as (f1 & f2 & HX). cbn [parse_one_decl] in HX. destruct (GramFacts.gfold_each _ _ _ _ HX _ Hn) as (f3 & f4 & HY).
    unfold no_token in HN. cbn beta in HY. rewrite HN in HY. discriminate.
  - (* EPrecDup *) destruct HF as (l1 & a & ids & l2 & E & HN). destruct (TA _ _ _ _ E) as [A1 A2]. destruct HN as [HN|(n & Hn & HN)]; auto.
  - (* EStartTerm *) destruct HF as (n & Hin & Hn). destruct (HE _ Hin) as (f1 & f2 & HX). cbn [parse_one_decl] in HX. destruct (opt_is_some _); [discriminate|]. rewrite Hn in HX. discriminate.
  - (* EFallbackIds *) destruct HF as (fb & ids & n & Hin & Hn & HN). destruct (HE _ Hin) as (f1 & f2 & HX). cbn [parse_one_decl] in HX. apply gbind_ok in HX as ([syms f3] & HX & _).
    pose proof (terms_ok _ _ _ _ _ _ HX _ Hn). unfold no_token in HN. congruence.
  - (* EFallbackTok *) destruct HF as (fb & ids & Hin & HN). destruct (HE _ Hin) as (f1 & f2 & HX). cbn [parse_one_decl] in HX. apply gbind_ok in HX as ([syms f3] & _ & HX). unfold no_token in HN. rewrite HN in HX. discriminate.
  - (* EFallbackLoop *) destruct HF as (l1 & fb & ids & l2 & b0 & n & E & H1 & H2 & H3). eapply (no_loop fuel ds f0 Hd); eauto.
  - (* EFallbackDup *) destruct HF as (l1 & fb & ids & l2 & E & HN). destruct (TF _ _ _ _ E) as [A1 A2]. destruct HN as [HN|(n & Hn & HN)]; auto.
  - (* EWildTok *) destruct HF as (n & Hin & Hn). destruct (HE _ Hin) as (f1 & f2 & HX). cbn [parse_one_decl] in HX. destruct (opt_is_some _); [discriminate|]. unfold no_token in Hn. rewrite Hn in HX. discriminate.
  - (* EClassTok *) destruct HF as (n & ids & Hin & Hn). destruct (HE _ Hin) as (f1 & f2 & HX). cbn [parse_one_decl] in HX. unfold no_token in Hn. rewrite Hn in HX. discriminate.
  - (* EClassIds *) destruct HF as (c & ids & n & Hin & Hn & HN). destruct (HE _ Hin) as (f1 & f2 & HX). cbn [parse_one_decl] in HX. destruct (is_terminal_ident c); [|discriminate]. apply gbind_ok in HX as ([s f3] & _ & HX).
    destruct (GramFacts.gfold_each _ _ _ _ HX _ Hn) as (f4 & f5 & HY). unfold no_token in HN. cbn beta in HY. rewrite HN in HY. discriminate.
  - (* EStackSizeDup *) destruct HF as (l1 & n & t & l2 & m & u & E & Hin). eapply (stack_once fuel ds f0 Hd); eauto.
  - (* ELhs *) destruct HF as (r & Hr & HN). destruct (HRU _ Hr) as (HX & _). congruence.
  - (* ECompound *) destruct HF as (ns & o & al & n & (r & Hr & He) & HL & Hn & HN). destruct (HRU _ Hr) as (_ & HX & _). specialize (HX _ He). cbn in HX. unfold no_token in HN.
    destruct ns as [|n1 [|n2 ns]]; [destruct Hn|cbn in HL; lia|]. specialize (HX _ Hn). congruence.
  - (* EPrecSym *) destruct HF as (r & n & Hr & Hp & HN). destruct (HRU _ Hr) as (_ & _ & HX). specialize (HX _ Hp). unfold no_token in HN. congruence.
  - (* ETypedNoCode *) destruct HF as (r & Hr & Hc & HT & HN). apply HN. destruct (de_rules _ _ _ DE) as (rs & _ & HF2). destruct (GramFacts.forall2_in_l _ _ _ HF2 _ Hr) as (ru & Hru & RM).
    assert (HX : forall e p, elem_sym g opts e p -> has_type g p = elem_typed ds e).
    { intros [[toks o] al] q. unfold elem_sym, elem_typed, has_type. destruct toks as [|tok [|tok2 toks]]; [intros []| |].
      - intros [Hid H]. destruct o; [destruct H as (Y & Hin & _); now rewrite (de_type_opt _ _ _ DE _ _ Hin)|now rewrite (de_type _ _ _ DE _ _ H Hid)].
      - intros (_ & H & _). now rewrite (de_type_anon _ _ _ DE _ H). }
    pose proof (rm_code _ _ _ _ RM) as HC. rewrite Hc in HC. destruct HC as [(_ & HC & _)|(_ & _ & HA & _ & HL)].
    { exfalso. apply HT. unfold has_type in HC. rewrite (de_type _ _ _ DE _ _ (rm_lhs _ _ _ _ RM) (or_intror (rm_low _ _ _ _ RM))) in HC. destruct (raw_type ds (d_lhs r)); [discriminate|auto]. }
    split; [now apply Forall_forall|]. rewrite <- HL. pose proof (rm_rhs _ _ _ _ RM) as HM. clear -HM HX. revert HM. generalize (d_rhs r). induction (r_rhs ru) as [|p l IH]; intros es HM; inversion HM as [|e q es' l' He HM' E1 E2]; subst; auto.
    cbn. rewrite (HX _ _ He). destruct (elem_typed ds e); cbn; auto.
  - (* EStartRhs *) destruct HF as (n & o & al & Hs & r & Hr & He). destruct (start_not_used ds b EX) as (s & Hs' & HN). rewrite Hs in Hs'. injection Hs' as <-. apply (HN _ _ Hr He). now left.
  - (* ENtNoRules *) destruct HF as (n & o & al & (r & Hr & He) & Hn & Hne & HN). destruct (symbols_have_rules ds b EX r _ n Hr He (or_introl eq_refl) Hn) as [|(d' & Hd' & Ed)]; [contradiction|]. now apply (HN _ Hd').
  - eapply gen_wild_type; eauto.
  - eapply gen_token; eauto.
  - eapply gen_parser; eauto.
  - eapply gen_generics; eauto.
  - eapply gen_fallback; eauto.
  - eapply gen_compound; eauto.
  - eapply gen_wild_alias; eauto.
Qed.
(** Every choice of the parser is decided, and no rule is lost. *)
Theorem expanded_decided : ~ conflicting g /\ forall r, ~ lost g r.
Proof.
  destruct run_exists as (fuel & f0 & opts & p2 & p3 & p4 & [_ _ DE W A HA _ _]). split.
  - intros HC. apply (conflict_exact g W p2 A (one_word ds g opts DE) _ _ HA) in HC. lia.
  - exact (lost_exact g W p2 A (one_word ds g opts DE) _ HA).
Qed.
End Whole.
