(** Precedences decide conflicts and nothing else (C51). *)
From Coq Require Import Permutation.
From Verif Require Import Base Syntax BaseFacts FrontEnd First States Actions Tables Runtime User Spec WfGrammar FrontFacts DeclSpec DeclFacts DeclMore PipeFacts BuildFacts GramFacts LangFacts
  PanicFacts TypeFacts TypeDecl ActFacts TabFacts CleanFacts FaultSpec FaultBack LalrFacts Names Main Claims3 Claims5 Claims6 Claims13 OrderSpec OrderFacts Rename RenameBack Claims22 Claims24 PrecErase.
Open Scope string_scope. Open Scope nat_scope. Open Scope list_scope.

(** A precedence line or a mark may name the token: it was mentioned before. *)
Definition met (seen : list ident) (n : ident) : Prop := is_terminal_ident n = true /\ In n seen.
(** [ds'] is [ds], which has no precedence lines, with such lines added after the first mention
    of their tokens, and with marks [[X]] added to rules, taken off or replaced. *)
Inductive marked : list ident -> list decl -> list decl -> Prop :=
| mk_nil seen : marked seen [] []
| mk_line seen a ids ds ds' : Forall (met seen) ids -> marked seen ds ds' -> marked seen ds (DAssoc a ids :: ds')
| mk_same seen d ds ds' : is_prec_line d = false -> marked (seen ++ mention d) ds ds' -> marked seen (d :: ds) (d :: ds')
| mk_rule seen l rhs c p p' ds ds' : (forall n, p = Some n \/ p' = Some n -> met (seen ++ mention (DRule l rhs c None)) n) ->
    marked (seen ++ mention (DRule l rhs c None)) ds ds' -> marked seen (DRule l rhs c p :: ds) (DRule l rhs c p' :: ds').
(** No token is given a precedence twice. *)
Definition ranked (ds : list decl) : list ident := flat_map (fun d => match d with DAssoc _ ids => ids | _ => [] end) ds.

Lemma names_R f f' : R f f' -> FrontFacts.names f' = FrontFacts.names f.
Proof. intros H. apply R_syms in H. unfold FrontFacts.names. assert (HE : forall l, map sy_name (map es l) = map sy_name l) by (intros l; rewrite map_map; reflexivity). now rewrite <- (HE (f_syms f)), <- (HE (f_syms f')), H. Qed.
Lemma R_refl f : R f f. Proof. reflexivity. Qed.
Lemma R_trans f1 f2 f3 : R f1 f2 -> R f2 f3 -> R f1 f3. Proof. unfold R. congruence. Qed.
Lemma R_sym f1 f2 : R f1 f2 -> R f2 f1. Proof. unfold R. congruence. Qed.
Lemma R_self f l : map es (f_syms f) = map es l -> R f (set_syms f l).
Proof. intros H. unfold R, ef. cbn. now rewrite H. Qed.
Lemma token_name n : is_terminal_ident n = true -> n <> "" /\ n <> "error".
Proof. intros H. split; intros ->; discriminate. Qed.

(** A token that is known leaves nothing but a use. *)
Lemma touch_R f n : is_terminal_ident n = true -> In n (FrontFacts.names f) -> exists i f1, symbol_new f n NTerm = GOk (i, f1) /\ R f f1.
Proof.
  intros U Hin. apply token_name in U as [U1 U2]. unfold symbol_new. apply String.eqb_neq in U1. rewrite U1. destruct (position _ _) as [i|] eqn:Ep.
  - exists i. eexists. split; [reflexivity|]. apply R_self. apply position_some in Ep as (s & Hs & Es & _). apply String.eqb_eq in Es.
    clear U1 Hin. revert i Hs. induction (f_syms f) as [|y l IH]; intros [|i] Hs; try discriminate; cbn in Hs |- *.
    + injection Hs as ->. f_equal. unfold es, sym_incr_use. cbn [sy_name sy_kind sy_fb sy_prec sy_use sy_type sy_attrs]. rewrite Es. apply String.eqb_neq in U2. now rewrite U2.
    + f_equal. now apply IH.
  - exfalso. apply in_map_iff in Hin as (s & Es & Hs). apply position_none with (a := s) in Ep; auto. rewrite Es, String.eqb_refl in Ep. discriminate.
Qed.
Lemma line_R a ids : forall f, Forall (met (FrontFacts.names f)) ids ->
  let r := gfold (fun f tok => if is_terminal_ident tok then
          '(s, f1) <-! symbol_new f tok NTerm ;
          if opt_is_some (sy_prec (get_sym f1 s)) then GErr EPrecDup
          else GOk (set_syms f1 (upd (f_syms f1) s (sym_set_prec (Some (f_prec f1, a)))))
        else GErr EPrecNonTerm) ids f in
  r = GErr EPrecDup \/ exists f1, r = GOk f1 /\ R f f1.
Proof.
  induction ids as [|n ids IH]; intros f HF; cbn [gfold]; [right; exists f; split; [reflexivity|apply R_refl]|]. inversion HF as [|? ? [U Hn] HF']; subst. rewrite U.
  destruct (touch_R f n U Hn) as (i & f1 & Ht & H1). rewrite Ht. cbn [gbind]. destruct (opt_is_some _); [now left|]. cbn [gbind].
  assert (H2 : R f (set_syms f1 (upd (f_syms f1) i (sym_set_prec (Some (f_prec f1, a)))))).
  { eapply R_trans; [exact H1|]. apply R_self. clear. revert i. induction (f_syms f1) as [|y l IH]; intros [|i]; cbn; auto. now rewrite <- IH. }
  destruct (IH (set_syms f1 (upd (f_syms f1) i (sym_set_prec (Some (f_prec f1, a)))))) as [HE|(f2 & E2 & H3)].
  - now rewrite (names_R _ _ H2).
  - left. exact HE.
  - right. exists f2. split; [exact E2|]. eapply R_trans; eauto.
Qed.
Lemma assoc_R fuel f a ids : Forall (met (FrontFacts.names f)) ids -> parse_one_decl fuel f (DAssoc a ids) = GErr EPrecDup \/ exists f1, parse_one_decl fuel f (DAssoc a ids) = GOk f1 /\ R f f1.
Proof.
  intros HF. cbn [parse_one_decl]. destruct (line_R a ids (set_precno f (S (f_prec f))) HF) as [HE|(f1 & HE & H1)]; [now left|right]. exists f1. split; auto.
Qed.
(** A rule with another mark *)
Lemma mark_R fuel f f' l rhs c p p' f1 : R f f' -> (forall n, p = Some n \/ p' = Some n -> met (FrontFacts.names f ++ mention (DRule l rhs c None)) n) ->
  parse_one_decl fuel f (DRule l rhs c p) = GOk f1 -> exists f1', parse_one_decl fuel f' (DRule l rhs c p') = GOk f1' /\ R f1 f1'.
Proof.
  intros HF HM H. cbn [parse_one_decl] in *. destruct (is_nonterminal_ident l); [|discriminate].
  pose proof (new_R f f' l NNonTerm HF) as S1. destruct (symbol_new f l NNonTerm) as [[x f2]| | |] eqn:E1; try discriminate. destruct (symbol_new f' l NNonTerm) as [[x' f2']| | |]; try contradiction. destruct S1 as [E2 H2]. cbn in E2, H2. subst x'. cbn [gbind] in *.
  assert (HG : forall rhs sy f2 f2', R f2 f2' -> sim pR (gfold (fun '(syms, f) e => '(x, f') <-! rhs_elem_sym f e; GOk (syms ++ [x], f')) rhs (sy, f2)) (gfold (fun '(syms, f) e => '(x, f') <-! rhs_elem_sym f e; GOk (syms ++ [x], f')) rhs (sy, f2'))).
  { clear. intros rhs sy f2 f2' H1. eapply (sim_fold eq pR); [apply forall2_same| |split; [reflexivity|exact H1]]. intros a b [s1 f3] [s2 f3'] -> Ha [E2 H2]. cbn in E2, H2. subst s2.
    eapply sim_bind; [apply elem_R; exact H2|]. intros [y f4] [y' f4'] [E3 H3]. cbn in E3, H3. subst y'. split; auto. }
  specialize (HG rhs [] f2 f2' H2). destruct (gfold _ rhs ([], f2)) as [[r f3]| | |] eqn:E3; try discriminate. destruct (gfold _ rhs ([], f2')) as [[r' f3']| | |] eqn:E3'; try contradiction. destruct HG as [E4 H4]. cbn in E4, H4. subst r'. cbn [gbind] in *.
  assert (HB : incl (FrontFacts.names f ++ mention (DRule l rhs c None)) (FrontFacts.names f3)).
  { apply brings_new in E1 as (A1 & A2 & _). apply brings_rhs in E3 as (B1 & B2 & _). cbn [mention]. apply incl_app; [eapply incl_tran; eauto|]. intros n [<-|Hn]; [apply B1, A2; now left|]. rewrite app_nil_r in Hn. now apply B2. }
  assert (HT : forall n, met (FrontFacts.names f ++ mention (DRule l rhs c None)) n -> is_terminal_ident n = true /\ (forall g, FrontFacts.names g = FrontFacts.names f3 -> exists i g1, symbol_new g n NTerm = GOk (i, g1) /\ R g g1)).
  { intros n [U Hn]. split; auto. intros g Hg. apply touch_R; auto. rewrite Hg. now apply HB. }
  assert (HP : exists ps g3, (match p with None => GOk (None, f3) | Some id => if is_terminal_ident id then '(s, f1) <-! symbol_new f3 id NTerm; GOk (Some s, f1) else GErr EPrecSym end) = GOk (ps, g3) /\ R f3 g3).
  { destruct p as [n|]; [|exists None, f3; split; [reflexivity|apply R_refl]]. destruct (HT n (HM n (or_introl eq_refl))) as [U HS]. rewrite U. destruct (HS f3 eq_refl) as (i & g1 & E & HR). rewrite E. exists (Some i), g1. split; auto. }
  assert (HP' : exists ps g3, (match p' with None => GOk (None, f3') | Some id => if is_terminal_ident id then '(s, f1) <-! symbol_new f3' id NTerm; GOk (Some s, f1) else GErr EPrecSym end) = GOk (ps, g3) /\ R f3' g3).
  { destruct p' as [n|]; [|exists None, f3'; split; [reflexivity|apply R_refl]]. destruct (HT n (HM n (or_intror eq_refl))) as [U HS]. rewrite U. destruct (HS f3' (names_R _ _ H4)) as (i & g1 & E & HR). rewrite E. exists (Some i), g1. split; auto. }
  destruct HP as (ps & g3 & EP & R3). destruct HP' as (ps' & g3' & EP' & R3'). rewrite EP in H. rewrite EP'. cbn [gbind] in *.
  assert (HR : R g3 g3') by (exact (R_trans _ _ _ (R_sym _ _ R3) (R_trans _ _ _ H4 R3'))). pose proof (create_R g3 g3' x r (match c with Some c => CUser c | None => CAbsent end) ps ps' HR) as SC. rewrite H in SC.
  destruct (create_rule g3' _ _ _ ps') as [f1'| | |]; try contradiction. exists f1'. split; auto.
Qed.

Lemma marked_R fuel seen ds ds' : marked seen ds ds' -> forall f f' f1, incl seen (FrontFacts.names f) -> R f f' -> gfold (parse_one_decl fuel) ds f = GOk f1 ->
  gfold (parse_one_decl fuel) ds' f' = GErr EPrecDup \/ exists f1', gfold (parse_one_decl fuel) ds' f' = GOk f1' /\ R f1 f1'.
Proof.
  induction 1 as [seen|seen a ids ds ds' HM H IH|seen d ds ds' HD H IH|seen l rhs c p p' ds ds' HM H IH]; intros f f' f1 HI HF HG; cbn [gfold] in *.
  - injection HG as <-. right. exists f'. auto.
  - destruct (assoc_R fuel f' a ids) as [E|(f2 & E & H2)].
    + rewrite (names_R _ _ HF). eapply Forall_impl; [|exact HM]. intros n [U Hn]. split; auto.
    + rewrite E. now left.
    + rewrite E. cbn [gbind]. apply (IH f f2 f1 HI); auto. eapply R_trans; eauto.
  - apply gbind_ok in HG as (f2 & H2 & HG). pose proof (decl_R fuel f f' d HF) as SD. rewrite H2 in SD. destruct (parse_one_decl fuel f' d) as [f2'| | |]; try (exfalso; apply SD; intros a ids ->; discriminate).
    cbn [gbind]. apply (IH f2 f2' f1); auto; [|apply SD; intros a ids ->; discriminate]. apply brings_one in H2 as (B1 & B2 & _). apply incl_app; auto. eapply incl_tran; eauto.
  - apply gbind_ok in HG as (f2 & H2 & HG). destruct (mark_R fuel f f' l rhs c p p' f2 HF) as (f2' & E & H3); auto.
    { intros n Hn. destruct (HM n Hn) as [U Hi]. split; auto. apply in_app_iff in Hi. apply in_app_iff. destruct Hi as [Hi|Hi]; auto. }
    rewrite E. cbn [gbind]. apply (IH f2 f2' f1); auto. apply brings_one in H2 as (B1 & B2 & _). apply incl_app; [eapply incl_tran; eauto|]. intros n Hn. apply B2. cbn [mention] in *. rewrite app_nil_r in Hn. destruct Hn as [<-|Hn]; [now left|]. right. apply in_app_iff. now left.
Qed.
Lemma marked_build fuel ord ds ds' b : marked [] ds ds' -> build fuel ord ds = GOk b -> clean (bt_grammar b) -> sy_name (gsym (bt_grammar b) (g_error (bt_grammar b))) = "error" ->
  build fuel ord ds' = GErr EPrecDup \/ exists b', build fuel ord ds' = GOk b' /\ eg (bt_grammar b') = eg (bt_grammar b) /\ bt_firsts b' = bt_firsts b /\ bt_auto b' = bt_auto b /\ bt_acts b' = bt_acts b /\ bt_comp b' = bt_comp b /\ bt_tables b' = bt_tables b.
Proof.
  intros HM HB HC HN. unfold build in *. apply gbind_ok in HB as (f & Hf & HB). unfold new_from_decls in *. apply gbind_ok in Hf as (f0 & Hd & Hf).
  destruct (marked_R fuel [] ds ds' HM fe_init fe_init f0) as [E|(f0' & E & H0)]; auto; [intros ? []|apply R_refl|rewrite E; now left|]. right. rewrite E. cbn [gbind].
  pose proof (new_R f0 f0' "{default}" NNonTerm H0) as S1. apply gbind_ok in Hf as ([x f1] & H1 & Hf). rewrite H1 in S1. destruct (symbol_new f0' "{default}" NNonTerm) as [[x' f1']| | |]; try contradiction. destruct S1 as [E2 H2]. cbn in E2, H2. subst x'. cbn [gbind].
  pose proof (R_rules _ _ H2) as ER. destruct (f_rules f1) as [|r0 rl] eqn:Er; [discriminate|]. destruct (f_rules f1') as [|r0' rl'] eqn:Er'; [discriminate|]. injection Hf as <-. cbn [gbind]. eapply back_R; eauto.
Qed.

Lemma no_assoc ds : (forall d, In d ds -> is_prec_line d = false) -> forall n, assoc_of ds n = None.
Proof.
  intros H n. unfold assoc_of. generalize 0. induction ds as [|d ds IH]; intros k; auto. assert (HD := H d (or_introl eq_refl)). destruct d; cbn [assoc_from]; try discriminate; apply IH; intros; apply H; now right.
Qed.
Lemma marked_bare seen ds ds' : marked seen ds ds' -> forall d, In d ds -> is_prec_line d = false.
Proof. induction 1; intros e He; auto; try contradiction; destruct He as [<-|He]; auto. Qed.
Lemma nodup_mid {A} (l m : list A) a : NoDup (l ++ m) -> In a l -> In a m -> False.
Proof. induction l as [|x l IH]; cbn; intros ND H1 H2; [contradiction|]. inversion ND as [|? ? HN ND']; subst. destruct H1 as [->|H1]; [apply HN, in_app_iff; now right|now apply IH]. Qed.
Lemma nodup_right {A} (l m : list A) : NoDup (l ++ m) -> NoDup m.
Proof. induction l as [|x l IH]; cbn; auto. intros H. inversion H; auto. Qed.
Lemma nodup_left {A} (l m : list A) : NoDup (l ++ m) -> NoDup l.
Proof. induction l as [|x l IH]; cbn; intros H; [constructor|]. inversion H as [|? ? H1 H2]; subst. constructor; auto. intros Hx. apply H1, in_app_iff. now left. Qed.
Lemma no_dup_fault ds : NoDup (ranked ds) -> ~ fault ds EPrecDup.
Proof.
  intros ND HF. destruct HF as (l1 & a & ids & l2 & -> & HF). unfold ranked in ND. rewrite flat_map_app in ND. cbn [flat_map] in ND. destruct HF as [HF|(n & Hn & HF)].
  - apply HF. apply nodup_right, nodup_left in ND. exact ND.
  - destruct (assoc_of l1 n) as [q|] eqn:E; [|contradiction]. apply assoc_in in E as (a' & ids' & H1 & H2). eapply (nodup_mid _ _ n ND); [apply in_flat_map; exists (DAssoc a' ids'); auto|]. apply in_app_iff. now left.
Qed.

(** Precedences added to a grammar that is accepted without them give the same parser. *)
Theorem marks_unseen fuel ord ds ds' b : hash_order ord -> build fuel ord ds = GOk b -> marked [] ds ds' -> NoDup (ranked ds') ->
  exists b', build fuel ord ds' = GOk b' /\ bt_tables b' = bt_tables b /\ bt_acts b' = bt_acts b /\ (rows_apart b -> rows_apart b').
Proof.
  intros HO HB HM ND. assert (EX : expands ds b) by (now exists fuel, ord). destruct (ex_decl ds b EX) as (opts & DE).
  assert (HC : clean (bt_grammar b)) by (eapply decls_clean; eauto; now apply no_assoc, (marked_bare [] _ ds')). assert (HN : sy_name (gsym (bt_grammar b) (g_error (bt_grammar b))) = "error").
  { destruct (de_error _ _ _ DE) as (s & Hs & Es). unfold gsym. now rewrite (nth_error_nth _ _ _ Hs). }
  destruct (marked_build fuel ord ds ds' b HM HB HC HN) as [E|(b' & E & H1 & H2 & H3 & H4 & H5 & H6)].
  - exfalso. apply (no_dup_fault ds' ND). eapply rejected_for_a_reason; eauto. intros [H|H]; discriminate.
  - exists b'. splits; auto. unfold rows_apart. rewrite H5. intros HA k Hk. assert (HP : pack_states (bt_grammar b) (bt_comp b) = GOk k) by (rewrite (pack_states_eg _ _ (bt_comp b) H1); exact Hk). specialize (HA k HP).
    intros w s1 s2 o L1 L2 O1 O2. specialize (HA w s1 s2 o L1 L2 O1 O2). assert (HE : forall s, aset (bt_grammar b') (bt_comp b) s w = aset (bt_grammar b) (bt_comp b) s w); [|now rewrite !HE].
    intros s. unfold aset, action_set, state_num. rewrite (state_order_eg _ _ (bt_comp b) H1). rewrite <- (eg_rlen (bt_grammar b')), H1, eg_rlen. assert (g_nterm (bt_grammar b') = g_nterm (bt_grammar b)) as -> by (exact (f_equal g_nterm H1)). assert (g_dflt (bt_grammar b') = g_dflt (bt_grammar b)) as -> by (exact (f_equal g_dflt H1)). reflexivity.
Qed.

Lemma tables_same b b' : bt_tables b' = bt_tables b -> same_parser b b'.
Proof. intros H. unfold same_parser. now rewrite H. Qed.
Theorem marks_same ds ds' b : expands ds b -> marked [] ds ds' -> NoDup (ranked ds') ->
  exists b', expands ds' b' /\ same_parser b b' /\ t_names (bt_tables b') = t_names (bt_tables b).
Proof.
  intros (fuel & ord & HO & HB) HM ND. destruct (marks_unseen fuel ord ds ds' b HO HB HM ND) as (b' & E & H1 & _). exists b'. split; [now exists fuel, ord|]. split; [now apply tables_same|now rewrite H1].
Qed.

(** ** Precedence lines anywhere *)
Definition bare (ds : list decl) : list decl := filter (fun d => negb (is_prec_line d)) ds.
Definition prec_lines (ds : list decl) : list decl := filter is_prec_line ds.

Lemma marked_lines seen l : forall ls, (forall d, In d ls -> is_prec_line d = true /\ Forall (met (seen ++ flat_map mention l)) (mention d)) -> (forall d, In d l -> is_prec_line d = false) -> marked seen l (l ++ ls).
Proof.
  revert seen. induction l as [|d l IH]; intros seen ls HL HB; cbn [app].
  - induction ls as [|e ls IH]; [constructor|]. destruct (HL e (or_introl eq_refl)) as [H1 H2]. destruct e; try discriminate. constructor; [|apply IH; intros; apply HL; now right]. cbn [flat_map mention] in H2. now rewrite app_nil_r in H2.
  - constructor; [apply HB; now left|]. apply IH; [|intros; apply HB; now right]. intros e He. rewrite <- app_assoc. apply (HL e He).
Qed.
Lemma perm_split ds : Permutation (bare ds ++ prec_lines ds) ds.
Proof.
  unfold bare, prec_lines. induction ds as [|d ds IH]; cbn; auto. destruct (is_prec_line d); cbn; [|now constructor]. apply Permutation_sym, Permutation_cons_app, Permutation_sym, IH.
Qed.
Lemma first_bare {B} (f : decl -> option B) : (forall a ids, f (DAssoc a ids) = None) -> forall l, DeclSpec.first_of f (bare l) = DeclSpec.first_of f l.
Proof. intros H. unfold bare. induction l as [|d l IH]; auto. destruct d; cbn [filter is_prec_line negb DeclSpec.first_of]; rewrite ?IH, ?H; auto. Qed.
Lemma first_lines {B} (f : decl -> option B) : (forall a ids, f (DAssoc a ids) = None) -> forall l, (forall d, In d l -> is_prec_line d = true) -> DeclSpec.first_of f l = None.
Proof. intros H. induction l as [|d l IH]; intros HL; auto. assert (HD := HL d (or_introl eq_refl)). destruct d; try discriminate. cbn [DeclSpec.first_of]. rewrite H. apply IH. intros; apply HL; now right. Qed.

Section Lines.
Context (ds : list decl).
Let ds0 := bare ds.
Let ds1 := bare ds ++ prec_lines ds.
Lemma lines_are d : In d (prec_lines ds) -> is_prec_line d = true.
Proof. intros H. now apply filter_In in H. Qed.
Lemma bare_are d : In d (bare ds) -> is_prec_line d = false.
Proof. intros H. apply filter_In in H as [_ H]. now apply negb_true_iff in H. Qed.
Lemma first_split {B} (f : decl -> option B) : (forall a ids, f (DAssoc a ids) = None) -> DeclSpec.first_of f ds1 = DeclSpec.first_of f ds /\ DeclSpec.first_of f ds0 = DeclSpec.first_of f ds.
Proof.
  intros H. pose proof (first_bare f H ds) as E. split; auto. unfold ds1. rewrite <- E. pose proof (first_lines f H (prec_lines ds) lines_are) as EL. clear E. induction (bare ds) as [|d l IH]; cbn [app DeclSpec.first_of]; auto. destruct (f d); auto.
Qed.
Lemma rules_split : rules_in ds1 = rules_in ds /\ rules_in ds0 = rules_in ds.
Proof.
  assert (E0 : forall l, rules_in (bare l) = rules_in l) by (clear; unfold bare; induction l as [|d l IH]; auto; destruct d; cbn; rewrite ?IH; auto).
  assert (E1 : forall l, rules_in (prec_lines l) = []) by (clear; unfold prec_lines; induction l as [|d l IH]; auto; destruct d; cbn; auto).
  split; [|apply E0]. unfold ds1. rewrite <- (E0 ds). specialize (E1 ds). clear E0. induction (bare ds) as [|d l IH]; cbn [app rules_in]; auto. destruct d; cbn; rewrite ?IH; auto.
Qed.
Lemma class_split n : class_of ds1 n = class_of ds n /\ class_of ds0 n = class_of ds n.
Proof.
  assert (E0 : forall l, class_of (bare l) n = class_of l n) by (clear; unfold bare; induction l as [|d l IH]; auto; destruct d; cbn; rewrite ?IH; auto).
  assert (E1 : forall l, class_of (prec_lines l) n = None) by (clear; unfold prec_lines; induction l as [|d l IH]; auto; destruct d; cbn; auto).
  split; [|apply E0]. unfold ds1. rewrite <- (E0 ds). specialize (E1 ds). clear E0. induction (bare ds) as [|d l IH]; cbn [app class_of]; auto. now rewrite IH.
Qed.
Lemma start_split : start_of ds1 = start_of ds /\ start_of ds0 = start_of ds.
Proof. unfold start_of, start_line. destruct rules_split as [-> ->]. destruct (first_split (fun d => match d with DStartSymbol n => Some n | _ => None end)) as [-> ->]; auto. Qed.
Lemma split_rearranged : rearranged ds1 ds.
Proof.
  constructor; [apply perm_split| |apply start_split]. unfold ds1. rewrite filter_app. assert (E0 : filter is_prec_line (bare ds) = []) by (clear; unfold bare; induction ds as [|d l IH]; auto; destruct d; cbn; auto).
  assert (E1 : filter is_prec_line (prec_lines ds) = prec_lines ds) by (clear; unfold prec_lines; induction ds as [|d l IH]; auto; destruct d; cbn; rewrite ?IH; auto). now rewrite E0, E1.
Qed.
Lemma split_rivals : no_rivals ds0 -> no_rivals ds1.
Proof.
  unfold no_rivals, ds1, ds0. pose proof lines_are as HL. induction (bare ds) as [|d l IH]; cbn [app]; intros H.
  - clear H. induction (prec_lines ds) as [|d l IH]; constructor; [|apply IH; intros; apply HL; now right]. apply Forall_forall. intros e _. assert (HD := HL d (or_introl eq_refl)). destruct d; try discriminate. cbn. auto.
  - inversion H as [|? ? H1 H2]; subst. constructor; [|now apply IH]. apply Forall_app. split; auto. apply Forall_forall. intros e He. apply HL in He. destruct e; try discriminate. destruct d; cbn; auto.
Qed.
Lemma split_self : no_self_fallback ds0 -> no_self_fallback ds1.
Proof. intros H fb ids Hin. apply in_app_iff in Hin as [Hin|Hin]; [now apply H|]. apply lines_are in Hin. discriminate. Qed.
Lemma split_flat : flat_decls ds0 -> flat_decls ds1.
Proof.
  intros [H1 H2]. split.
  - intros n ms m. rewrite !(proj1 (class_split _)), <- !(proj2 (class_split _)). apply H1.
  - intros d ns o al. rewrite (proj1 rules_split), <- (proj2 rules_split). intros A B C m Hm. rewrite (proj1 (class_split _)), <- (proj2 (class_split _)). eapply H2; eauto.
Qed.
Lemma split_begin : classes_begin ds0 -> classes_begin ds1.
Proof. intros H n ms. rewrite (proj1 (class_split _)), <- (proj2 (class_split _)). apply H. Qed.
Lemma split_named : elems_named ds0 -> elems_named ds1.
Proof. intros H lhs rhs c p toks o al Hin. apply in_app_iff in Hin as [Hin|Hin]; [now apply (H lhs rhs c p)|]. apply lines_are in Hin. discriminate. Qed.
Lemma split_ranked : NoDup (ranked ds) -> NoDup (ranked ds1).
Proof. apply Permutation_NoDup, Permutation_flat_map, Permutation_sym, perm_split. Qed.

Context (b0 : built) (EX : expands ds0 b0) (HT : forall n, In n (ranked ds) -> is_terminal_ident n = true /\ mentions ds0 n) (ND : NoDup (ranked ds)) (NR : no_rivals ds0).

Lemma lines_first : exists b1, expands ds1 b1 /\ bt_tables b1 = bt_tables b0 /\ (rows_apart b0 -> rows_apart b1).
Proof.
  destruct EX as (fuel & ord & HO & HB). destruct (marks_unseen fuel ord ds0 ds1 b0 HO HB) as (b1 & E & H1 & _ & H2).
  - apply marked_lines; [|exact bare_are]. intros d Hd. split; [now apply lines_are|]. apply Forall_forall. intros n Hn. destruct (HT n) as [U M].
    + apply filter_In in Hd as [Hd Hp]. apply in_flat_map. exists d. split; auto. destruct d; try discriminate. exact Hn.
    + split; auto. apply in_flat_map. exact M.
  - now apply split_ranked.
  - exists b1. split; [now exists fuel, ord|]. auto.
Qed.
Theorem lines_accepted : no_self_fallback ds0 -> flat_decls ds0 -> elems_named ds0 -> classes_begin ds0 -> exists b, expands ds b.
Proof.
  intros NS FD EN CB. destruct lines_first as (b1 & EX1 & _). eapply (rearranged_accepted ds1 ds b1 EX1 split_rearranged (split_rivals NR)); [| | | |].
  - now rewrite (proj1 rules_split).
  - now apply split_self.
  - now apply split_flat.
  - now apply split_named.
  - now apply split_begin.
Qed.
Lemma split_type n : name_type ds1 n = name_type ds0 n.
Proof.
  assert (HW : forall n, is_wild ds1 n = is_wild ds0 n).
  { intros k. unfold is_wild, wildcard_of. destruct (first_split (fun d => match d with DWildcard n => Some n | _ => None end) (fun _ _ => eq_refl)) as [-> ->]. reflexivity. }
  assert (HO : forall m, own_of ds1 m = own_of ds0 m).
  { intros m. unfold own_of. rewrite HW. unfold raw_type, type_of, extra_token_of, default_type_of. repeat match goal with |- context [DeclSpec.first_of ?f ds1] => destruct (first_split f (fun _ _ => eq_refl)) as [-> ->] end. destruct (class_split m) as [-> ->]. reflexivity. }
  unfold name_type. rewrite HW. destruct (class_split n) as [-> ->]. unfold default_type_of. match goal with |- context [DeclSpec.first_of ?f ds1] => destruct (first_split f (fun _ _ => eq_refl)) as [-> ->] end. destruct (is_wild ds0 n); auto. destruct (class_of ds n) as [[|c l]|]; rewrite ?HO; auto.
Qed.
Lemma split_types : types_ok ds0 -> types_ok ds1.
Proof.
  intros [H1 H2 H3 H4]. unfold fallback_of, wildcard_of, default_type_of, extra_token_of, type_of in *.
  constructor; unfold fallback_of, wildcard_of, default_type_of, extra_token_of, type_of.
  - intros a c. rewrite !split_type. match goal with |- context [DeclSpec.first_of ?f ds1] => destruct (first_split f (fun _ _ => eq_refl)) as [-> <-] end. apply H1.
  - intros w n ms. match goal with |- context [DeclSpec.first_of ?f ds1] => destruct (first_split f (fun _ _ => eq_refl)) as [-> <-] end. rewrite (proj1 (class_split n)), <- (proj2 (class_split n)). apply H2.
  - intros w d ns o al. match goal with |- context [DeclSpec.first_of ?f ds1] => destruct (first_split f (fun _ _ => eq_refl)) as [-> <-] end. rewrite (proj1 rules_split), <- (proj2 rules_split). apply H3.
  - destruct H4 as [H4|(H4 & H5 & H6)]; [left|right].
    + intros s. rewrite (proj1 start_split), <- (proj2 start_split), split_type. apply H4.
    + repeat split.
      * match goal with |- context [DeclSpec.first_of ?f ds1] => destruct (first_split f (fun _ _ => eq_refl)) as [-> <-] end. exact H4.
      * match goal with |- context [DeclSpec.first_of ?f ds1] => destruct (first_split f (fun _ _ => eq_refl)) as [-> <-] end. exact H5.
      * intros n. match goal with |- context [DeclSpec.first_of ?f ds1] => destruct (first_split f (fun _ _ => eq_refl)) as [-> <-] end. apply H6.
Qed.
Theorem lines_answers b : usable ds0 b0 -> expands ds b -> usable ds b -> types_ok ds0 -> wildcard_of ds0 = None -> (forall a l, assoc_of ds a = Some (l, ANone) -> fallback_of ds a = None) ->
  forall {V X E} (sm : sem V X E) ks0 ks, tokens_wf b0 ks0 -> tokens_wf b ks -> reading b0 sm ks0 = reading b sm ks -> forall x r x',
  (answers b0 sm x ks0 r x' -> answers_or_overflows b sm x ks r x') /\ (answers b sm x ks r x' -> answers_or_overflows b0 sm x ks0 r x').
Proof.
  intros US0 EXB USB TO WN NF V X E sm ks0 ks K0 K EQ x r x'. destruct lines_first as (b1 & EX1 & T1 & R1).
  assert (US1 : usable ds1 b1) by (destruct US0 as [A B C]; constructor; [now apply split_flat|now apply split_self|auto]).
  pose proof (rearranged_answers ds1 ds b1 b EX1 US1 EXB USB split_rearranged (split_rivals NR)) as HA. unfold answers, answers_or_overflows, tokens_wf, reading, tok_name in *. rewrite T1 in HA. apply HA; auto.
  - now rewrite (proj1 rules_split).
  - now apply split_types.
  - unfold wildcard_of in *. match goal with |- context [DeclSpec.first_of ?f ds1] => destruct (first_split f (fun _ _ => eq_refl)) as [-> <-] end. exact WN.
  - intros a l HL. pose proof (rearranged_same ds1 ds b1 EX1 split_rearranged (split_rivals NR)) as SW. rewrite (sw_fb _ _ SW). apply (NF a l). now rewrite <- (sw_assoc _ _ SW).
Qed.
End Lines.
