(** Parsers that differ only in blocks and aliases read every input with the same tree (C54), and a block that
    is left out returns what would have been written there, with precedences and fallbacks too (C53). *)
From Verif Require FaultNone Claims17 FaultBack.
From Verif Require Import Base Syntax BaseFacts FrontEnd First States Actions Tables Runtime User Spec WfGrammar FirstFacts ClosureFacts AutoFacts LalrFacts ActFacts CompFacts TabFacts LookFacts PipeFacts RunFacts
  SoundFacts AbsFacts CompleteFacts RefFacts FrontFacts DeclSpec DeclFacts DeclMore BuildFacts GramFacts LangFacts TypeFacts MeanSpec MeanFacts TypeDecl TreeSpec CycleFacts PanicFacts FaultSpec Main Claims2 Claims6 Claims9 Claims13 KeptFacts PrecSpec Claims15 Claims16
  OrderSpec OrderFacts IsoFacts OrderIso IsoRun OrderRun Claims28 Claims29 BlockIso Claims30.
Open Scope string_scope. Open Scope nat_scope. Open Scope list_scope.

(** ** The lines that the syntax is made of *)
(** What a declaration says about the syntax: a rule without its block and aliases, precedences, classes, fallbacks,
    the wildcard and the start symbol. Types, handlers, attributes and limits say nothing about it. *)
Definition syntax_line (d : decl) : list decl :=
  match d with
  | DRule l r _ p => [DRule l (map (fun e => (nameless e, None)) r) None p]
  | DAssoc _ _ | DStartSymbol _ | DFallback _ _ | DWildcard _ | DTokenClass _ _ => [d]
  | _ => []
  end.
Definition skeleton (ds : list decl) : list decl := flat_map syntax_line ds.
Lemma sk_first {B} (f : decl -> option B) : (forall l r c p, f (DRule l r c p) = None) -> (forall d, syntax_line d = [] -> f d = None) -> forall ds, DeclSpec.first_of f ds = DeclSpec.first_of f (skeleton ds).
Proof. intros H1 H2. induction ds as [|d ds IH]; auto. cbn. destruct d; cbn; rewrite ?H1, ?IH; auto; rewrite H2; auto. Qed.
Lemma sk_class n ds : class_of ds n = class_of (skeleton ds) n.
Proof. induction ds as [|d ds IH]; auto. cbn. destruct d; cbn; rewrite ?IH; auto. Qed.
Lemma sk_assoc n ds : forall k, assoc_from k ds n = assoc_from k (skeleton ds) n.
Proof. induction ds as [|d ds IH]; intros k; auto. cbn. destruct d; cbn; rewrite ?IH; auto. Qed.
Definition bared (r : drule) : drule := mkDr (d_lhs r) (map (fun e => (nameless e, None)) (d_rhs r)) None (d_prec r).
Lemma sk_rules ds : rules_in (skeleton ds) = map bared (rules_in ds).
Proof. induction ds as [|d ds IH]; auto. destruct d; try exact IH. cbn. unfold bared at 1. cbn. f_equal. exact IH. Qed.

Section Skeleton.
Context (ds1 ds2 : list decl) (SK : skeleton ds2 = skeleton ds1).
Lemma sx_class n : class_of ds2 n = class_of ds1 n.
Proof. rewrite (sk_class n ds1), (sk_class n ds2). now rewrite SK. Qed.
Lemma sx_assoc n : assoc_of ds2 n = assoc_of ds1 n.
Proof. unfold assoc_of. rewrite (sk_assoc n ds1), (sk_assoc n ds2). now rewrite SK. Qed.
Lemma sx_first {B} (f : decl -> option B) : (forall l r c p, f (DRule l r c p) = None) -> (forall d, syntax_line d = [] -> f d = None) -> DeclSpec.first_of f ds2 = DeclSpec.first_of f ds1.
Proof. intros H1 H2. rewrite (sk_first f H1 H2 ds1), (sk_first f H1 H2 ds2). now rewrite SK. Qed.
Lemma sx_wild : wildcard_of ds2 = wildcard_of ds1.
Proof. apply sx_first; auto. now intros []. Qed.
Lemma sx_fb n : fallback_of ds2 n = fallback_of ds1 n.
Proof. apply sx_first; auto. now intros []. Qed.
Lemma sx_rules : Forall2 shaped (rules_in ds1) (rules_in ds2).
Proof.
  pose proof (sk_rules ds1) as E1. rewrite <- SK, sk_rules in E1. clear SK. revert E1. generalize (rules_in ds1) as l1, (rules_in ds2) as l2. induction l1 as [|d1 l1 IH]; intros [|d2 l2] E; try discriminate; constructor.
  - cbn [map] in E. injection E as E1 E2 E3 _. constructor; auto. apply (f_equal (map fst)) in E2. rewrite !map_map in E2. exact E2.
  - cbn [map] in E. injection E as _ _ _ E. auto.
Qed.
Lemma sx_start : start_of ds2 = start_of ds1.
Proof.
  unfold start_of. assert (E : start_line ds2 = start_line ds1) by (apply sx_first; auto; now intros []). rewrite E. destruct (start_line ds1); auto. destruct sx_rules as [|d d' l l' HS HF]; auto. cbn. now rewrite (sh_lhs _ _ HS).
Qed.
End Skeleton.
(** All that matters: the rules but for blocks and aliases, and what the lines say of each name. Splitting a
    %token_class or %fallback line in two, or writing the start symbol that is taken anyway, changes nothing of it. *)
Record same_syntax (ds1 ds2 : list decl) : Prop := {
  ss_rules : Forall2 shaped (rules_in ds1) (rules_in ds2);
  ss_class : forall n, class_of ds2 n = class_of ds1 n;
  ss_assoc : forall n, assoc_of ds2 n = assoc_of ds1 n;
  ss_fb : forall n, fallback_of ds2 n = fallback_of ds1 n;
  ss_wild : wildcard_of ds2 = wildcard_of ds1;
  ss_start : start_of ds2 = start_of ds1 }.
Lemma skeleton_syntax ds1 ds2 : skeleton ds2 = skeleton ds1 -> same_syntax ds1 ds2.
Proof. intros SK. constructor; [now apply sx_rules|now apply sx_class|now apply sx_assoc|now apply sx_fb|now apply sx_wild|now apply sx_start]. Qed.
Lemma same_syntax_sym ds1 ds2 : same_syntax ds1 ds2 -> same_syntax ds2 ds1.
Proof. intros [H1 H2 H3 H4 H5 H6]. constructor; auto. clear -H1. induction H1; constructor; auto using shaped_sym. Qed.
Lemma reblocked_skeleton ds1 ds2 : Forall2 reblocked ds1 ds2 -> skeleton ds2 = skeleton ds1.
Proof.
  induction 1 as [|d d' l l' [d0 H|lhs rhs rhs' c c' p H] HF IH]; auto; cbn; unfold skeleton in IH; rewrite IH; auto. f_equal. f_equal.
  rewrite <- (map_map nameless (fun e => (e, None))), H, map_map. reflexivity.
Qed.

(** ** Trees of the two grammars *)
Lemma bt_rule ds g o r ru : declared ds g o -> nth_error (g_rules g) r = Some ru -> List.length (rules_in ds) <= r ->
  exists j e Z X, nth_error o j = Some (Z, X) /\ e < 2 /\ r = List.length (rules_in ds) + (2 * j + e) /\ r_lhs ru = X /\ map fst (r_rhs ru) = match e with 0 => [] | _ => [Z] end.
Proof.
  intros DE Hr L. assert (HL : r < List.length (g_rules g)) by (apply nth_error_Some; congruence). destruct (sd_split _ _ _ DE r HL) as [H|(j & e & [Z X] & Hj & He & ->)]; [lia|].
  exists j, e, Z, X. rewrite (sd_opt _ _ _ DE _ _ _ Hj He) in Hr. splits; auto; destruct e as [|[|e]]; try lia; cbn in Hr; injection Hr as <-; reflexivity.
Qed.
Section Trees.
Context (ds1 ds2 : list decl) (g1 g2 : grammar) (o1 o2 : list (nat * nat)).
Context (DE1 : declared ds1 g1 o1) (DE2 : declared ds2 g2 o2) (W1 : wf_grammar g1) (W2 : wf_grammar g2).
Notation N := (List.length (rules_in ds1)).
Notation S := (sym_to g1 g2 o1 o2 (same_place N)).
Notation R := (rule_to g1 g2 o1 o2 N (same_place N)).
Context (IO : iso g1 g2 S R) (EN : List.length (rules_in ds2) = N).

Lemma bt_opt Z X Z' Y : In (Z, X) o1 -> In (Z', Y) o2 -> S X Y -> exists m, at_name g1 Z m /\ at_name g2 Z' m /\ (upper m \/ lower m).
Proof.
  intros H1 H2 [(m & Km & B1 & B2)|[(Z2 & Z2' & m & J1 & J2 & B1 & B2 & Hm)|(B1 & B2 & _)]].
  - exfalso. destruct (opt_named _ _ _ DE1 _ _ H1) as (k & Hk). apply (known_opt k m Km). exact (at_fun _ _ _ _ B1 Hk).
  - pose proof (opt_uniq _ _ _ DE1 _ _ _ H1 J1) as ->. pose proof (opt_uniq _ _ _ DE2 _ _ _ H2 J2) as ->. eauto.
  - exfalso. destruct (opt_named _ _ _ DE1 _ _ H1) as (k & Hk). pose proof (at_fun _ _ _ _ Hk B1). discriminate.
Qed.

Context {V1 V2 : Type} (mt1 mt2 : nat -> nat -> Prop).
Notation tree1 := (tree (nat * V1)). Notation tree2 := (tree (nat * V2)).
Notation dec1 := (dec g1 N). Notation dec2 := (dec g2 N).
Notation alike := (tree_alike S R (M1 := nat * V1) (M2 := nat * V2)).

Theorem bt_alike :
  (forall X (tr : tree1), derives g1 mt1 X tr -> toks_ok g1 (yield tr) -> forall Y (tr2 : tree2), derives g2 mt2 Y tr2 -> toks_ok g2 (yield tr2) -> S X Y -> dec1 tr = dec2 tr2 -> alike tr tr2) /\
  (forall Xs (ts : list tree1), derives_all g1 mt1 Xs ts -> toks_ok g1 (flat_map yield ts) -> forall Ys (us : list tree2), derives_all g2 mt2 Ys us -> toks_ok g2 (flat_map yield us) -> Forall2 S Xs Ys ->
     map dec1 ts = map dec2 us -> trees_alike S R ts us).
Proof.
  apply derives_both.
  - intros a m X _ HO Y tr2 D2 HO2 HS HA. cbn [dec] in HA. destruct tr2 as [b m'|q us]; cbn [dec] in HA.
    + assert (E : gname g2 b = gname g1 a) by congruence. constructor. left. destruct (term_name ds1 g1 o1 DE1 W1 a (HO a m (or_introl eq_refl))) as (A1 & U & _). destruct (term_name ds2 g2 o2 DE2 W2 b (HO2 b m' (or_introl eq_refl))) as (A2 & _).
      exists (gname g1 a). splits; auto; [now right; left|]. now rewrite <- E.
    + destruct (q <? N); [discriminate|]. destruct us; discriminate.
  - intros r ru ts Hr HD IH HO Y tr2 D2 HO2 HS HA. cbn [dec] in HA. destruct (Nat.ltb_spec r N) as [L|L].
    + destruct tr2 as [b m'|q us]; cbn [dec] in HA; [discriminate|]. destruct (Nat.ltb_spec q N) as [L2|L2]; [|destruct us; discriminate].
      injection HA as <- HA. inversion D2 as [|? qu ? Hq HDs]; subst. assert (HR : R r r) by (left; now split). destruct (io_known _ _ _ _ IO _ _ _ HR Hr) as (qu' & Hq' & M). assert (qu' = qu) by congruence. subst qu'.
      constructor; auto. eapply IH; eauto. apply M.
    + destruct (bt_rule _ _ _ _ _ DE1 Hr L) as (j & e & Z & X & Hj & He & -> & EX & ER). destruct tr2 as [b m'|q us]; cbn [dec] in HA; [destruct ts; discriminate|].
      destruct (Nat.ltb_spec q N) as [L2|L2]; [destruct ts; discriminate|]. inversion D2 as [|? qu ? Hq HDs]; subst. rewrite <- EN in L2. destruct (bt_rule _ _ _ _ _ DE2 Hq L2) as (j' & e' & Z' & Y & Hj' & He' & -> & EY & ER').
      rewrite EY in HS. destruct (bt_opt _ _ _ _ (nth_error_In _ _ Hj) (nth_error_In _ _ Hj') HS) as (m & B1 & B2 & Hm). rewrite ER in HD, IH. rewrite ER' in HDs. rewrite EN in *.
      assert (HZ : S Z Z') by (left; exists m; splits; auto; now apply known_id).
      assert (HR : e' = e -> R (N + (2 * j + e)) (N + (2 * j' + e'))) by (intros ->; right; exists j, j', e, Z, Z', (r_lhs ru), Y, m; splits; auto).
      destruct e as [|[|e]]; [| |lia]; (destruct e' as [|[|e']]; [| |lia]); cbn in HD, HDs.
      * inversion HD; subst. inversion HDs; subst. constructor; [now apply HR|constructor].
      * inversion HD; subst. inversion HDs; subst. discriminate.
      * inversion HD; subst. inversion HDs; subst. discriminate.
      * constructor; [now apply HR|]. inversion HD as [|? u ? ? Du Dn]; subst. inversion Dn; subst. inversion HDs as [|? u' ? ? Du' Dn']; subst. inversion Dn'; subst. cbn [map] in *. injection HA as HA.
        apply (IH HO [Z'] [u']); auto. cbn. now rewrite HA.
  - intros _ Ys us D2 _ HF HA. destruct us; [constructor|discriminate].
  - intros X tr Xs ts _ IH _ IHs HO Ys us D2 HO2 HF HA. inversion HF as [|? Y ? Ys' HS HF']; subst. inversion D2 as [|? u ? us' Du Dus]; subst. cbn in HO, HO2, HA. apply toks_app in HO as [Oa Ob], HO2 as [Oc Od]. injection HA as HA HAs. constructor; [eapply IH; eauto|eapply IHs; eauto].
Qed.

Context (EF : forall n, fallback_of ds2 n = fallback_of ds1 n) (FU : forall n c, fallback_of ds1 n = Some c -> upper n).
Lemma bt_names X Y : S X Y -> option_map (gname g1) (sy_fb (gsym g1 X)) = option_map (gname g2) (sy_fb (gsym g2 Y)).
Proof.
  assert (FU2 : forall n c, fallback_of ds2 n = Some c -> upper n) by (intros n c; rewrite EF; apply FU).
  intros [(m & Km & A1 & A2)|[(Z & Z' & m & I1 & I2 & _)|(A1 & A2 & _)]].
  - destruct (sym_decl _ _ _ DE1 _ _ A1 (known_ne _ Km)) as (_ & -> & _). destruct (sym_decl _ _ _ DE2 _ _ A2 (known_ne _ Km)) as (_ & -> & _). symmetry. apply EF.
  - now rewrite (fb_opt _ _ _ _ _ DE1 FU I1), (fb_opt _ _ _ _ _ DE2 FU2 I2).
  - now rewrite (fb_anon _ _ _ _ DE1 A1), (fb_anon _ _ _ _ DE2 A2).
Qed.
Lemma bt_none X Y : S X Y -> sy_fb (gsym g1 X) = None -> sy_fb (gsym g2 Y) = None.
Proof. intros HS H. pose proof (bt_names _ _ HS) as E. rewrite H in E. now destruct (sy_fb (gsym g2 Y)). Qed.
Lemma bt_some X Y c : S X Y -> sy_fb (gsym g1 X) = Some c -> exists c', sy_fb (gsym g2 Y) = Some c' /\ S c c'.
Proof.
  intros HS H. pose proof (bt_names _ _ HS) as E. rewrite H in E. destruct (sy_fb (gsym g2 Y)) as [c'|] eqn:E2; [|discriminate]. cbn in E. injection E as E. exists c'. split; auto. left. exists (gname g1 c). splits.
  - right. left. eapply fb_upper; eauto.
  - eapply fb_named; eauto.
  - rewrite E. eapply fb_named; eauto.
Qed.
End Trees.

(** The first parser answers with what a tree means under its blocks. If the tree means something under the blocks
    of the second, that is what the second parser answers, unless it runs into the stack limit. *)
Theorem syntax_trees ds1 ds2 b1 b2 {V1 X1 E1 V2 X2 E2} (sm1 : sem V1 X1 E1) (sm2 : sem V2 X2 E2) : same_syntax ds1 ds2 -> expands ds1 b1 -> usable ds1 b1 -> expands ds2 b2 -> usable ds2 b2 ->
  wildcard_of ds1 = None -> (forall a l, assoc_of ds1 a = Some (l, ANone) -> fallback_of ds1 a = None) -> types_ok ds2 ->
  forall ks1 ks2, tokens_wf b1 ks1 -> tokens_wf b2 ks2 -> map fst (reading b1 sm1 ks1) = map fst (reading b2 sm2 ks2) ->
  forall x r x', answers b1 sm1 x ks1 r x' -> exists s v T, start_of ds1 = Some s /\ meant ds1 sm1 (taken ds1) s (reading b1 sm1 ks1) x x' v T /\ r = root_value ds1 sm1 s v /\
    forall y y' u, meant ds2 sm2 (taken ds2) s (reading b2 sm2 ks2) y y' u T -> answers_or_overflows b2 sm2 y ks2 (root_value ds2 sm2 s u) y'.
Proof.
  intros RB EX1 US1 EX2 US2 HW HT TO ks1 ks2 K1 K2 EQ x r x' (n & pp & H & Hd).
  set (g1 := bt_grammar b1). set (g2 := bt_grammar b2). set (h2 := user_hooks (bt_tables b2) sm2).
  destruct (reading_eq ds1 b1 EX1 US1 sm1 ks1 K1) as (ER1 & _ & Hok1). destruct (reading_eq ds2 b2 EX2 US2 sm2 ks2 K2) as (ER2 & _ & Hok2).
  destruct (ex_decl ds1 b1 EX1) as (o1 & DE1). destruct (ex_decl ds2 b2 EX2) as (o2 & DE2). destruct (de_start _ _ _ DE1) as (s & Hs & As & Low). destruct (de_start _ _ _ DE2) as (s' & Hs' & As' & _).
  assert (s' = s) by (rewrite (ss_start ds1 ds2 RB) in Hs'; congruence). subst s'. pose proof (ex_pipe ds1 b1 EX1 US1) as P1. pose proof (ex_pipe ds2 b2 EX2 US2) as P2.
  pose proof (expands_written _ _ EX1) as WR1. pose proof (expands_written _ _ EX2) as WR2. pose proof (ex_assoc ds1 b1 EX1) as AU.
  destruct (placed_blocks ds1 ds2 g1 g2 o1 o2 WR1 WR2 DE1 DE2 (ss_rules _ _ RB) (ss_class _ _ RB) (ss_assoc _ _ RB) (ss_start _ _ RB) AU) as [IO OR].
  destruct (compression_kept ds1 b1 EX1 sm1 x ks1 r x' US1 HW HT K1) as [HP _]. specialize (HP n pp H Hd).
  destruct (rparse_kept g1 _ _ _ _ P1 _ _ _ _ _ _ HP x [] []) as (tr & m & K & Hy & He & Ha); [constructor|]. cbn in Hy.
  assert (HO : toks_ok g1 (yield tr)) by (exact (eq_ind_r (fun l => toks_ok g1 l) Hok1 Hy)).
  pose proof (proj1 (kept_derives g1 _ _ _ _ P1) _ _ _ _ K (au_pos _ _ (ex_aut ds1 b1 EX1)) HO) as D.
  assert (HM : meant ds1 sm1 (taken ds1) s (reading b1 sm1 ks1) x x' (snd m) (Claims15.dec g1 (List.length (rules_in ds1)) tr)).
  { rewrite <- ER1, <- Hy. refine (proj1 (proj1 (tree_meant ds1 g1 o1 DE1 _ _ _ _ P1 sm1 _ _ (linked_taken ds1 g1 o1 DE1 (ex_wf ds1 b1 EX1))) _ _ D HO _ _ _ He) s As (or_intror Low)). }
  exists s, (snd m), (Claims15.dec g1 (List.length (rules_in ds1)) tr). splits; auto; [eapply (root_eq ds1 b1 EX1 US1 sm1 (tok_match g1)); eauto|]. intros y y' u HU.
  destruct (proj1 (meant_tree ds2 g2 o2 DE2 _ _ _ _ P2 sm2 _ _ (linked_taken ds2 g2 o2 DE2 (ex_wf ds2 b2 EX2)) (ex_sane ds2 b2 EX2 TO) (ex_auto ds2 b2 EX2) (fun a Y H => H)) _ _ _ _ _ _ HU (g_start g2) _ As' ER2 Hok2) as (tr2 & m2 & HD & Hy2 & He2 & Hv & HS & ET).
  { intros a m0 Hin. now apply (tokval_all ds2 b2 EX2 US2 sm2 ks2 K2 a m0). }
  assert (HO2 : toks_ok g2 (yield tr2)) by (exact (eq_ind_r (fun l => toks_ok g2 l) Hok2 Hy2)).
  assert (Ha2 : h_accept h2 m2 = Some (root_value ds2 sm2 s u)).
  { destruct (h_accept h2 m2) as [r2|] eqn:Ea.
    - f_equal. rewrite <- Hv. eapply (root_eq ds2 b2 EX2 US2 sm2 (tok_match g2)); eauto.
    - exfalso. apply (val_acc g2 _ _ _ _ P2 (ex_sane ds2 b2 EX2 TO) sm2 _ m2 HS Ea). }
  assert (EN : List.length (rules_in ds2) = List.length (rules_in ds1)) by (symmetry; exact (forall2_lt _ _ _ (ss_rules _ _ RB))).
  rewrite EN in ET. pose proof (proj1 (bt_alike ds1 ds2 g1 g2 o1 o2 DE1 DE2 (ex_wf ds1 b1 EX1) (ex_wf ds2 b2 EX2) IO EN (tok_match g1) (tok_match g2)) _ _ D HO _ _ HD HO2 (io_start _ _ _ _ IO) (eq_sym ET)) as TA.
  assert (FU : forall n c, fallback_of ds1 n = Some c -> upper n) by (destruct EX1 as (fuel & ord & Ho & HB); eapply fallback_upper; eauto).
  pose proof (proj1 (kept_alike g1 g2 _ _ IO OR (proj1 (FaultNone.expanded_decided ds1 b1 EX1)) _ _ _ _ P1 _ _ _ _ P2 (bt_some ds1 ds2 g1 g2 o1 o2 DE1 DE2 (ex_wf ds1 b1 EX1) (ex_wf ds2 b2 EX2) (ss_fb _ _ RB) FU) (bt_none ds1 ds2 g1 g2 o1 o2 DE1 DE2 (ss_fb _ _ RB) FU)) _ _ _ _ K 0 (g_start g2) tr2 0) as K2'.
  apply (compression_kept ds2 b2 EX2 sm2 y ks2 _ y' US2); auto.
  - now rewrite (ss_wild ds1 ds2 RB).
  - intros a l. rewrite (ss_assoc ds1 ds2 RB), (ss_fb ds1 ds2 RB). apply HT.
  - fold g2 h2. rewrite <- Hy2. eapply (kept_rparse g2 _ _ _ _ P2); eauto. apply K2'; auto.
    + intros a v Hin. destruct (HO a v Hin) as [_ L]. rewrite (proj2 (wg_term g1 (ex_wf ds1 b1 EX1) a ltac:(pose proof (wg_dflt_range g1 (ex_wf ds1 b1 EX1)); lia)) L). discriminate.
    + rewrite (proj2 (wg_term g1 (ex_wf ds1 b1 EX1) 0 ltac:(pose proof (wg_dflt_range g1 (ex_wf ds1 b1 EX1)); pose proof (wg_nterm_pos g1 (ex_wf ds1 b1 EX1)); lia)) (wg_nterm_pos g1 (ex_wf ds1 b1 EX1))). discriminate.
    + apply twin_0.
    + apply IO.
    + apply IO.
Qed.

(** ** What the tree means *)
Section Across.
Context (ds1 ds2 : list decl) (RB : same_syntax ds1 ds2).
Lemma ac_stands b n : stands ds1 b n -> stands ds2 b n.
Proof. unfold stands. now rewrite (ss_class _ _ RB). Qed.
Lemma ac_taken a b : taken ds1 a b -> taken ds2 a b.
Proof.
  intros [H|H]; [left|right; now rewrite (ss_wild _ _ RB)]. induction H; [constructor|]. eapply fl_step; eauto. now rewrite (ss_fb _ _ RB).
Qed.
Lemma ac_rule i d : nth_error (rules_in ds1) i = Some d -> exists d', nth_error (rules_in ds2) i = Some d' /\ shaped d d'.
Proof. intros H. exact (forall2_nth _ _ _ (ss_rules _ _ RB) _ _ H). Qed.

Lemma ac_same {V X E} (sm : sem V X E) tk es w x x' vs ts : meant_all ds2 sm tk es w x x' vs ts -> forall es', map nameless es' = map nameless es -> meant_all ds2 sm tk es' w x x' vs ts.
Proof.
  revert w x vs ts. induction es as [|e es IH]; intros w x vs ts H es' E0; inversion H as [|e0 es0 w1 w2 y y1 y2 v us t us' He Hes]; subst; (destruct es' as [|e' es']; [|]); try discriminate; [constructor|].
  cbn [map] in E0. injection E0 as E0 E1. econstructor; [|eapply IH; eauto]. destruct e as [[ns o] al], e' as [[ns' o'] al']. cbn in E0. injection E0 as -> ->. inversion He; subst; econstructor; eauto.
Qed.
Section Total.
Context {V1 X1 E1 V2 X2 E2 : Type} (sm1 : sem V1 X1 E1) (sm2 : sem V2 X2 E2) (b2 : built) (EX2 : expands ds2 b2) (TOT : forall c args x, exists x' v, u_block sm2 c args x = (x', inl v)).
Theorem ac_total :
  (forall n w x x' v T, meant ds1 sm1 (taken ds1) n w x x' v T -> forall wv y, map fst wv = map fst w -> exists y' u, meant ds2 sm2 (taken ds2) n wv y y' u T) /\
  (forall e w x x' v T, meant_elem ds1 sm1 (taken ds1) e w x x' v T -> forall wv y, map fst wv = map fst w -> exists y' u, meant_elem ds2 sm2 (taken ds2) e wv y y' u T) /\
  (forall es w x x' vs Ts, meant_all ds1 sm1 (taken ds1) es w x x' vs Ts -> forall wv y, map fst wv = map fst w -> exists y' us, meant_all ds2 sm2 (taken ds2) es wv y y' us Ts /\ List.length us = List.length es).
Proof.
  assert (H1 : forall a (wv : list (ident * V2)), map fst wv = [a] -> exists v, wv = [(a, v)]).
  { intros a [|[a' v] [|? ?]] H; try discriminate. injection H as ->. eauto. }
  apply meant_both.
  - intros a v b n x Ht Hs wv y Hw. destruct (H1 _ _ Hw) as (u & ->). exists y, u. econstructor; [apply ac_taken; eauto|now apply ac_stands].
  - intros i d w vs v x x1 x2 ts Hd _ IH Hr wv y Hw. destruct (IH wv y Hw) as (y1 & us & HM & L). destruct (ac_rule _ _ Hd) as (d' & Hd' & HS).
    assert (L' : List.length us = List.length (d_rhs d')) by (rewrite L, <- (map_length nameless (d_rhs d)), <- (map_length nameless (d_rhs d')), (sh_rhs _ _ HS); reflexivity).
    destruct (Claims17.result_total ds2 b2 EX2 sm2 TOT i d' us y1 Hd' L') as (y2 & u & HR). exists y2, u. rewrite <- (sh_lhs _ _ HS). econstructor; eauto. eapply ac_same; eauto. apply HS.
  - intros n al w x x' v T _ IH wv y Hw. destruct (IH wv y Hw) as (y' & u & H). exists y', u. now constructor.
  - intros n al x wv y Hw. destruct wv; [|discriminate]. exists y, (v_none sm2). constructor.
  - intros n al w x x' v T _ IH wv y Hw. destruct (IH wv y Hw) as (y' & u & H). exists y', (v_some sm2 u). now constructor.
  - intros ns o al a v b x Hl Ht Ha wv y Hw. destruct (H1 _ _ Hw) as (u & ->). exists y, u. econstructor; eauto. now apply ac_taken.
  - intros x wv y Hw. destruct wv; [|discriminate]. exists y, []. split; auto. constructor.
  - intros e es w1 w2 x x1 x2 v vs T Ts _ IH1 _ IH2 wv y Hw. rewrite map_app in Hw. apply map_eq_app in Hw as (v1 & v2 & -> & W1 & W2). destruct (IH1 v1 y W1) as (y1 & u & H). destruct (IH2 v2 y1 W2) as (y2 & us & H2 & L).
    exists y2, (u :: us). split; [econstructor; eauto|cbn; auto].
Qed.
End Total.

Section Same.
Context {V X E : Type} (sm : sem V X E).
Context (RES : forall i d d' vs x, nth_error (rules_in ds1) i = Some d -> nth_error (rules_in ds2) i = Some d' -> List.length vs = List.length (d_rhs d) -> result ds2 sm d' vs x = result ds1 sm d vs x).
Theorem ac_meant :
  (forall n w x x' v T, meant ds1 sm (taken ds1) n w x x' v T -> meant ds2 sm (taken ds2) n w x x' v T) /\
  (forall e w x x' v T, meant_elem ds1 sm (taken ds1) e w x x' v T -> meant_elem ds2 sm (taken ds2) e w x x' v T) /\
  (forall es w x x' vs Ts, meant_all ds1 sm (taken ds1) es w x x' vs Ts -> meant_all ds2 sm (taken ds2) es w x x' vs Ts /\ List.length vs = List.length es).
Proof.
  apply meant_both.
  - intros a v b n x Ht Hs. econstructor; [apply ac_taken; eauto|now apply ac_stands].
  - intros i d w vs v x x1 x2 ts Hd _ [IH L] Hr. destruct (ac_rule _ _ Hd) as (d' & Hd' & HS). rewrite <- (sh_lhs _ _ HS). econstructor; [exact Hd'| |rewrite (RES i d d'); eauto]. eapply ac_same; eauto. apply HS.
  - intros. now constructor.
  - intros. constructor.
  - intros. now constructor.
  - intros ns o al a v b x Hl Ht Ha. econstructor; eauto. now apply ac_taken.
  - intros x. split; auto. constructor.
  - intros e es w1 w2 x x1 x2 v vs T Ts _ IH1 _ [IH2 L]. split; [econstructor; eauto|cbn; auto].
Qed.
End Same.
End Across.

(** With blocks that never fail, the second parser accepts what the first accepts. *)
Theorem syntax_sentences ds1 ds2 b1 b2 {V1 X1 E1 V2 X2 E2} (sm1 : sem V1 X1 E1) (sm2 : sem V2 X2 E2) : same_syntax ds1 ds2 -> expands ds1 b1 -> usable ds1 b1 -> expands ds2 b2 -> usable ds2 b2 ->
  wildcard_of ds1 = None -> (forall a l, assoc_of ds1 a = Some (l, ANone) -> fallback_of ds1 a = None) -> types_ok ds2 -> (forall c args x, exists x' v, u_block sm2 c args x = (x', inl v)) ->
  forall ks1 ks2, tokens_wf b1 ks1 -> tokens_wf b2 ks2 -> map fst (reading b1 sm1 ks1) = map fst (reading b2 sm2 ks2) ->
  forall x r x' y, answers b1 sm1 x ks1 r x' -> exists q y', answers_or_overflows b2 sm2 y ks2 q y'.
Proof.
  intros RB EX1 US1 EX2 US2 HW HT TO TOT ks1 ks2 K1 K2 EQ x r x' y HA.
  destruct (syntax_trees ds1 ds2 b1 b2 sm1 sm2 RB EX1 US1 EX2 US2 HW HT TO ks1 ks2 K1 K2 EQ x r x' HA) as (s & v & T & _ & HM & _ & HB).
  destruct (proj1 (ac_total ds1 ds2 RB sm1 sm2 b2 EX2 TOT) _ _ _ _ _ _ HM (reading b2 sm2 ks2) y (eq_sym EQ)) as (y' & u & HU). eauto.
Qed.

(** ** A block that is left out *)
Lemma hand_reblocked ds1 ds2 K : Forall2 (handed ds1 K) ds1 ds2 -> Forall2 reblocked ds1 ds2.
Proof.
  generalize ds1 at 1 as D. intros D HF. induction HF as [|d d' l l' Hd HF IH]; constructor; auto. destruct Hd as [d|lh pre ns o post p al c t H1 H2 H3 H4].
  - destruct (is_rule d) eqn:HR; [|now constructor]. destruct d; try discriminate. now constructor.
  - constructor. now rewrite !map_app.
Qed.
Section Hand.
Context (ds1 ds2 : list decl) {V X E : Type} (sm : sem V X E) (HH : Forall2 (handed ds1 (gives_back sm)) ds1 ds2).
Theorem left_out_anyhow b1 b2 : expands ds1 b1 -> usable ds1 b1 -> expands ds2 b2 -> usable ds2 b2 -> wildcard_of ds1 = None -> (forall a l, assoc_of ds1 a = Some (l, ANone) -> fallback_of ds1 a = None) -> types_ok ds1 -> types_ok ds2 ->
  forall ks1 ks2, tokens_wf b1 ks1 -> tokens_wf b2 ks2 -> reading b1 sm ks1 = reading b2 sm ks2 ->
  forall x r x', (answers b1 sm x ks1 r x' -> answers_or_overflows b2 sm x ks2 r x') /\ (answers b2 sm x ks2 r x' -> answers_or_overflows b1 sm x ks1 r x').
Proof.
  intros EX1 US1 EX2 US2 HW HT T1 T2 ks1 ks2 K1 K2 EQ x r x'. pose proof (hand_reblocked _ _ _ HH) as RB. pose proof (skeleton_syntax _ _ (reblocked_skeleton _ _ RB)) as SK. pose proof (same_syntax_sym _ _ SK) as KS.
  assert (RES : forall i d d' vs y, nth_error (rules_in ds1) i = Some d -> nth_error (rules_in ds2) i = Some d' -> List.length vs = List.length (d_rhs d) -> result ds2 sm d' vs y = result ds1 sm d vs y).
  { intros i d d' vs y Hd Hd' L. destruct (forall2_nth _ _ _ (hd_rules ds1 ds2 sm HH) _ _ Hd) as (d2 & Hd2 & HD). assert (d2 = d') by congruence. subst d2. exact (hd_result ds1 ds2 sm HH d d' vs y HD L). }
  assert (EL : forall i d d', nth_error (rules_in ds1) i = Some d -> nth_error (rules_in ds2) i = Some d' -> List.length (d_rhs d') = List.length (d_rhs d)).
  { intros i d d' Hd Hd'. destruct (ac_rule ds1 ds2 SK _ _ Hd) as (d2 & Hd2 & HS). assert (d2 = d') by congruence. subst d2. rewrite <- (map_length nameless (d_rhs d)), <- (map_length nameless (d_rhs d')), (sh_rhs _ _ HS). reflexivity. }
  split; intros HA.
  - destruct (syntax_trees ds1 ds2 b1 b2 sm sm SK EX1 US1 EX2 US2 HW HT T2 ks1 ks2 K1 K2 (f_equal (map fst) EQ) x r x' HA) as (s & v & T & _ & HM & -> & HB).
    rewrite EQ in HM. pose proof (HB x x' v (proj1 (ac_meant ds1 ds2 SK sm RES) _ _ _ _ _ _ HM)) as H. unfold root_value in *. now rewrite (rb_name ds1 ds2 RB) in H.
  - assert (HW2 : wildcard_of ds2 = None) by now rewrite (rb_wild ds1 ds2 RB). assert (HT2 : forall a l, assoc_of ds2 a = Some (l, ANone) -> fallback_of ds2 a = None) by (intros a l; rewrite (rb_assoc ds1 ds2 RB), (rb_fb ds1 ds2 RB); apply HT).
    destruct (syntax_trees ds2 ds1 b2 b1 sm sm KS EX2 US2 EX1 US1 HW2 HT2 T1 ks2 ks1 K2 K1 (f_equal (map fst) (eq_sym EQ)) x r x' HA) as (s & v & T & _ & HM & -> & HB).
    assert (RES2 : forall i d d' vs y, nth_error (rules_in ds2) i = Some d -> nth_error (rules_in ds1) i = Some d' -> List.length vs = List.length (d_rhs d) -> result ds1 sm d' vs y = result ds2 sm d vs y).
    { intros i d d' vs y Hd Hd' L. symmetry. apply (RES i); auto. rewrite L. exact (EL i d' d Hd' Hd). }
    rewrite <- EQ in HM. pose proof (HB x x' v (proj1 (ac_meant ds2 ds1 KS sm RES2) _ _ _ _ _ _ HM)) as H. unfold root_value in *. now rewrite (rb_name ds1 ds2 RB).
Qed.
End Hand.

(** Such a list is accepted if and only if the one with the block is. *)
Section Taken.
Context (ds1 ds2 : list decl) (K : nat -> Prop) (HH : Forall2 (handed ds1 K) ds1 ds2).
Let RB := hand_reblocked _ _ _ HH.
Definition as_decl (r : drule) : decl := DRule (d_lhs r) (d_rhs r) (d_code r) (d_prec r).
Lemma hand_rules : Forall2 (fun r r' => handed ds1 K (as_decl r) (as_decl r')) (rules_in ds1) (rules_in ds2).
Proof.
  clear RB. assert (HG : forall l l', Forall2 (handed ds1 K) l l' -> Forall2 (fun r r' => handed ds1 K (as_decl r) (as_decl r')) (rules_in l) (rules_in l')); [|now apply HG].
  intros l l' HF. induction HF as [|d d' l l' Hd HF IH]; cbn; [constructor|]. destruct Hd as [d|lh pre ns o post p al c t H1 H2 H3 H4]; cbn.
  - destruct d; auto. constructor; auto. constructor.
  - constructor; auto. cbn. econstructor; eauto.
Qed.
(** The rule with the block is the rule without it, or it names the typed element. *)
Definition named_one (r r' : drule) : Prop := r' = r \/ exists pre ns o post al t, type_of ds1 (d_lhs r) = Some t /\ elem_type ds1 (ns, o, None) <> None /\ (forall e, In e (pre ++ post) -> elem_type ds1 e = None /\ is_aliased e = false) /\
  d_lhs r' = d_lhs r /\ d_code r = None /\ d_code r' <> None /\ d_rhs r = pre ++ (ns, o, None) :: post /\ d_rhs r' = pre ++ (ns, o, Some al) :: post.
Lemma hand_cases r r' : handed ds1 K (as_decl r) (as_decl r') -> named_one r r'.
Proof.
  clear RB HH. destruct r as [l rh c p], r' as [l' rh' c' p']. unfold as_decl. cbn. intros H. inversion H; subst; [now left|right]. do 6 eexists. cbn. splits; eauto. discriminate.
Qed.
Lemma typed_elem ds e : elem_typed ds e = opt_is_some (elem_type ds e).
Proof. destruct e as [[[|n [|m ns]] [|]] al]; reflexivity. Qed.
Lemma typed_raw ds n t : type_of ds n = Some t -> raw_type ds n <> None.
Proof. intros H. unfold raw_type. destruct (extra_token_of ds), (class_of ds n); try congruence. destruct (is_terminal_ident n); rewrite H; discriminate. Qed.
Lemma same_elem e : elem_typed ds2 e = elem_typed ds1 e.
Proof. destruct e as [[[|n [|m ns]] [|]] al]; cbn; auto. now rewrite (rb_raw _ _ RB). Qed.
Lemma same_hands r : hands_on ds2 r <-> hands_on ds1 r.
Proof. unfold hands_on. assert (E : filter (elem_typed ds2) (d_rhs r) = filter (elem_typed ds1) (d_rhs r)) by (apply filter_ext; apply same_elem). now rewrite E. Qed.
Lemma same_choices ns o al al' : choices ds2 (ns, o, al) = choices ds1 (ns, o, al').
Proof. cbn. destruct ns as [|x [|y l]]; auto. apply (rb_class _ _ RB). Qed.
Lemma same_choice ns o al al' : choice_type ds2 (ns, o, al) = choice_type ds1 (ns, o, al').
Proof. cbn. destruct ns as [|x [|y l]]; auto; rewrite ?(rb_name _ _ RB), ?(rb_dflt _ _ RB); auto. Qed.
Lemma same_reads r e : reads ds2 r e <-> reads ds1 r e.
Proof. unfold reads. now rewrite (rb_raw _ _ RB), same_elem. Qed.

Lemma hand_fault e : about_blocks e -> fault ds2 e -> fault ds1 e \/ fault ds1 EWildType.
Proof.
  intros [->|[-> | ->]]; cbn.
  - intros (r & Hr & HC & HT & HN). left. destruct (GramFacts.forall2_in_r _ _ _ hand_rules _ Hr) as (r1 & Hr1 & HD). apply hand_cases in HD as [->|(pre & ns & o & post & al & t & _ & _ & _ & _ & _ & HC' & _)]; [|contradiction].
    exists r1. rewrite (rb_raw _ _ RB) in HT. rewrite same_hands in HN. auto.
  - intros (r & e2 & m & ms & n & Hr & He & HR & HC & Hn & HT). left. destruct (GramFacts.forall2_in_r _ _ _ hand_rules _ Hr) as (r1 & Hr1 & HD). destruct e2 as [[ns2 o2] al2]. rewrite (same_choices _ _ _ al2) in HC. rewrite (rb_name _ _ RB), (same_choice _ _ _ al2) in HT. rewrite same_reads in HR.
    apply hand_cases in HD as [->|(pre & ns & o & post & al & t & H1 & H2 & H3 & EL & EC & EC' & ER & ER')]; [exists r1, (ns2, o2, al2), m, ms, n; splits; auto|].
    rewrite ER' in He. apply in_elt_inv in He as [He|He].
    + injection He as -> -> ->. exists r1, (ns, o, None), m, ms, n. splits; auto; [rewrite ER; apply in_elt|]. right. right. splits; auto; [eapply typed_raw; eauto|]. rewrite typed_elem. now destruct (elem_type ds1 (ns, o, None)).
    + exfalso. destruct (H3 _ He) as [E1 E2]. destruct HR as [HR|[(k & a & HR)|(HR & _)]]; [cbn in HR, E2; congruence|injection HR as -> -> ->; discriminate|congruence].
  - intros (w & o2 & al2 & HW & (r & Hr & He) & HO). rewrite (rb_wild _ _ RB) in HW. destruct (GramFacts.forall2_in_r _ _ _ hand_rules _ Hr) as (r1 & Hr1 & HD).
    apply hand_cases in HD as [->|(pre & ns & o & post & al & t & H1 & H2 & H3 & EL & EC & EC' & ER & ER')]; [left; exists w, o2, al2; splits; auto; exists r1; auto|].
    rewrite ER' in He. apply in_elt_inv in He as [He|He].
    + injection He as <- -> ->. destruct o; [left|right].
      * exists w, true, None. splits; auto. exists r1. split; auto. rewrite ER. apply in_elt.
      * exists w. split; auto.
    + left. exists w, o2, al2. splits; auto. exists r1. split; auto. rewrite ER. apply in_app_iff. apply in_app_iff in He as [He|He]; auto. right. now right.
Qed.
Lemma hand_back e : about_blocks e -> fault ds1 e -> fault ds2 e.
Proof.
  intros [->|[-> | ->]]; cbn.
  - intros (r & Hr & HC & HT & HN). destruct (GramFacts.forall2_in_l _ _ _ hand_rules _ Hr) as (r2 & Hr2 & HD). apply hand_cases in HD as [->|(pre & ns & o & post & al & t & H1 & H2 & H3 & EL & EC & EC' & ER & ER')].
    + exists r. rewrite (rb_raw _ _ RB), same_hands. auto.
    + exfalso. apply HN. split.
      * intros e He. rewrite ER in He. apply in_elt_inv in He as [He|He]; [now subst e|]. now apply H3.
      * rewrite ER, filter_app. cbn [filter]. rewrite typed_elem. destruct (elem_type ds1 (ns, o, None)) eqn:Et; [|contradiction]. cbn [opt_is_some].
        assert (HZ : forall l, (forall e, In e l -> In e (pre ++ post)) -> filter (elem_typed ds1) l = []).
        { intros l. induction l as [|e l IH]; intros HI; auto. cbn. rewrite typed_elem, (proj1 (H3 e (HI e (or_introl eq_refl)))). cbn. apply IH. intros e' He'. apply HI. now right. }
        rewrite (HZ pre), (HZ post); auto using in_or_app.
  - intros (r & e1 & m & ms & n & Hr & He & HR & HC & Hn & HT). destruct (GramFacts.forall2_in_l _ _ _ hand_rules _ Hr) as (r2 & Hr2 & HD). destruct e1 as [[ns1 o1] al1]. apply hand_cases in HD as [->|(pre & ns & o & post & al & t & H1 & H2 & H3 & EL & EC & EC' & ER & ER')].
    + exists r, (ns1, o1, al1), m, ms, n. rewrite (same_choices _ _ _ al1), (rb_name _ _ RB), (same_choice _ _ _ al1), same_reads. splits; auto.
    + rewrite ER in He. apply in_elt_inv in He as [He|He].
      * injection He as -> -> ->. exists r2, (ns, o, Some al), m, ms, n. rewrite (same_choices _ _ _ None), (rb_name _ _ RB), (same_choice _ _ _ None). splits; auto; [rewrite ER'; apply in_elt|now left].
      * exfalso. destruct (H3 _ He) as [E1 E2]. destruct HR as [HR|[(k & a & HR)|(_ & _ & HR)]]; [cbn in HR, E2; congruence|injection HR as -> -> ->; discriminate|]. rewrite typed_elem, E1 in HR. discriminate.
  - intros (w & o1 & al1 & HW & (r & Hr & He) & HO). destruct (GramFacts.forall2_in_l _ _ _ hand_rules _ Hr) as (r2 & Hr2 & HD). rewrite <- (rb_wild _ _ RB) in HW.
    apply hand_cases in HD as [->|(pre & ns & o & post & al & t & H1 & H2 & H3 & EL & EC & EC' & ER & ER')]; [exists w, o1, al1; splits; auto; exists r; auto|].
    rewrite ER in He. apply in_elt_inv in He as [He|He].
    + injection He as <- -> ->. exists w, o, (Some al). splits; auto; [|right; discriminate]. exists r2. split; auto. rewrite ER'. apply in_elt.
    + exists w, o1, al1. splits; auto. exists r2. split; auto. rewrite ER'. apply in_app_iff. apply in_app_iff in He as [He|He]; auto. right. now right.
Qed.
Theorem left_out_accepted : no_self_fallback ds1 -> elems_named ds1 -> classes_begin ds1 -> flat_decls ds1 -> (exists b, expands ds1 b) <-> (exists b, expands ds2 b).
Proof.
  intros NS EN CB FD. pose proof (reblocked_all _ _ RB) as BR. split; intros [b EX].
  - apply (blocks_accepted ds1 ds2 RB b EX NS EN CB FD). assert (HN : forall e, about_blocks e -> ~ fault ds2 e).
    { intros e HA HF. destruct (hand_fault e HA HF) as [H|H]; revert H; apply (expanded_faultless ds1 b EX); auto. }
    splits; apply HN; unfold about_blocks; tauto.
  - apply (blocks_accepted ds2 ds1 BR b EX (rb_self _ _ RB NS) (rb_named _ _ RB EN) (rb_begin _ _ RB CB) (rb_flat _ _ RB FD)). assert (HN : forall e, about_blocks e -> ~ fault ds1 e).
    { intros e HA HF. apply hand_back in HF; auto. revert HF. apply (expanded_faultless ds2 b EX). intros _. exact (rb_flat _ _ RB FD). }
    splits; apply HN; unfold about_blocks; tauto.
Qed.
End Taken.

(** ** Acceptance depends on the rest only through the checks of the rest *)
(** What can be wrong with types, handlers and the like, or with an identifier of a rule or a type *)
Definition beside_syntax (e : gerr) : Prop :=
  match e with
  | EAlreadySyntaxError | EAlreadyParseFail | EAlreadyStackOverflow | EDefaultTypeDup | EExtraArgDup | EErrorTypeDup | ETokenDup | EParserDup | EExtraTokenDup | EStackSizeDup
  | EAttrs | EBadIdent | ETypeDup | ETypedNoCode | EWildType | ETokenNotEmpty | EParserNotEmpty | EGenerics | EFallbackType | ECompoundAlias | EWildAlias => True
  | _ => False
  end.
Section Beside.
Context (ds1 ds2 : list decl) (SK : skeleton ds2 = skeleton ds1).
Lemma sx_part l1 d l2 : syntax_line d = [d] -> is_rule d = false -> forall ds, skeleton ds = skeleton (l1 ++ d :: l2) -> exists k1 k2, ds = k1 ++ d :: k2 /\ skeleton k1 = skeleton l1 /\ skeleton k2 = skeleton l2.
Proof.
  clear SK. intros HL HR ds. unfold skeleton at 2. rewrite flat_map_app. cbn [flat_map]. rewrite HL. change (flat_map syntax_line l1) with (skeleton l1). change (flat_map syntax_line l2) with (skeleton l2). generalize (skeleton l1) as s1. intros s1.
  revert s1. induction ds as [|a ds IH]; intros s1 E; cbn in E; [destruct s1; discriminate|].
  assert (HA : syntax_line a = [] \/ exists a', syntax_line a = [a'] /\ (is_rule a' = false -> a' = a)) by (destruct a; cbn; auto; right; eexists; split; eauto; discriminate).
  destruct HA as [HA|(a' & HA & HE)]; rewrite HA in E; cbn in E.
  - destruct (IH s1 E) as (k1 & k2 & -> & E1 & E2). exists (a :: k1), k2. splits; auto. cbn. now rewrite HA.
  - destruct s1 as [|b s1]; cbn in E; injection E as E0 E.
    + subst a'. rewrite <- (HE HR). exists [], ds. auto.
    + destruct (IH s1 E) as (k1 & k2 & -> & E1 & E2). exists (a :: k1), k2. splits; auto. cbn. rewrite HA. cbn. now f_equal.
Qed.
Lemma sx_split l1 d l2 : ds2 = l1 ++ d :: l2 -> syntax_line d = [d] -> is_rule d = false -> exists k1 k2, ds1 = k1 ++ d :: k2 /\ skeleton k1 = skeleton l1 /\ skeleton k2 = skeleton l2.
Proof. intros E HL HR. apply sx_part; auto. now rewrite <- E. Qed.
Lemma sx_in d : In d ds2 -> syntax_line d = [d] -> is_rule d = false -> In d ds1.
Proof. intros H HL HR. apply in_split in H as (l1 & l2 & E). destruct (sx_split _ _ _ E HL HR) as (k1 & k2 & -> & _). apply in_elt. Qed.
Lemma sx_elem ns o al : has_elem ds2 (ns, o, al) -> exists al', has_elem ds1 (ns, o, al').
Proof.
  intros (r & Hr & He). destruct (GramFacts.forall2_in_r _ _ _ (sx_rules _ _ SK) _ Hr) as (r1 & Hr1 & HS). destruct (shaped_has _ _ _ _ _ (shaped_sym _ _ HS) He) as (al' & He'). exists al', r1. auto.
Qed.
Lemma sx_twice k : k = 6 \/ k = 7 -> twice k ds2 -> twice k ds1.
Proof.
  intros HK (i & j & d & d' & L & Hi & Hj & K1 & K2). assert (HL : forall x, single_kind x = Some k -> syntax_line x = [x] /\ is_rule x = false) by (intros x Hx; destruct HK as [-> | ->]; destruct x; cbn in Hx; try discriminate; auto).
  destruct (nth_error_split _ _ Hi) as (l1 & l2 & E & Li). assert (HJ : nth_error l2 (j - S i) = Some d').
  { rewrite E, nth_error_app2 in Hj by lia. replace (j - List.length l1) with (S (j - S i)) in Hj by lia. exact Hj. }
  destruct (HL _ K1) as [A1 A2]. destruct (HL _ K2) as [B1 B2]. destruct (sx_split _ _ _ E A1 A2) as (k1 & k2 & E1 & _ & E2). destruct (nth_error_split _ _ HJ) as (m1 & m2 & Em & _). rewrite Em in E2.
  destruct (sx_part _ _ _ B1 B2 _ E2) as (p1 & p2 & -> & _). exists (List.length k1), (S (List.length k1 + List.length p1)), d, d'. splits; auto; [lia| |]; rewrite E1.
  - rewrite nth_error_app2 by lia. now rewrite Nat.sub_diag.
  - rewrite nth_error_app2 by lia. replace (S (List.length k1 + List.length p1) - List.length k1) with (S (List.length p1)) by lia. cbn. rewrite nth_error_app2 by lia. now rewrite Nat.sub_diag.
Qed.
Theorem sx_fault e : (forall g2, written ds2 g2 -> exists S R g1, written ds1 g1 /\ iso g2 g1 S R /\ ordered g2 R) -> ~ beside_syntax e -> fault ds2 e -> fault ds1 e.
Proof.
  intros HW HN HF.
  assert (FBK : forall k1 l1, skeleton k1 = skeleton l1 -> forall a, fallback_of k1 a = fallback_of l1 a) by (intros k1 l1 EK a; exact (sx_fb l1 k1 EK a)).
  destruct e; cbn in HF |- *; try (exfalso; exact (HN I)); try (apply sx_twice; auto; fail).
  - destruct HF as (a & ids & n & H & HF). exists a, ids, n. split; auto. now apply sx_in.
  - destruct HF as (l1 & a & ids & l2 & E & HF). destruct (sx_split _ _ _ E eq_refl eq_refl) as (k1 & k2 & E0 & F0 & _). exists k1, a, ids, k2. split; auto. destruct HF as [HF|(n & Hn & HF)]; auto.
    right. exists n. split; auto. now rewrite (sx_assoc l1 k1 F0).
  - destruct HF as (n & H & HF). exists n. split; auto. now apply sx_in.
  - destruct HF as (fb & ids & n & H & HF). exists fb, ids, n. split; auto. now apply sx_in.
  - destruct HF as (fb & ids & H & HF). exists fb, ids. split; auto. now apply sx_in.
  - destruct HF as (l1 & fb & ids & l2 & c & n & E & H1 & H2 & Hn). destruct (sx_split _ _ _ E eq_refl eq_refl) as (k1 & k2 & E0 & F0 & _). exists k1, fb, ids, k2, c, n. splits; auto; [now rewrite (FBK k1 l1 F0)|].
    clear -H2 F0 FBK. induction H2; [constructor|]. eapply fl_step; eauto. now rewrite (FBK k1 l1 F0).
  - destruct HF as (l1 & fb & ids & l2 & E & HF). destruct (sx_split _ _ _ E eq_refl eq_refl) as (k1 & k2 & E0 & F0 & _). exists k1, fb, ids, k2. split; auto. destruct HF as [HF|(n & Hn & HF)]; auto.
    right. exists n. split; auto. now rewrite (FBK k1 l1 F0).
  - destruct HF as (n & H & HF). exists n. split; auto. now apply sx_in.
  - destruct HF as (n & ids & H & HF). exists n, ids. split; auto. now apply sx_in.
  - destruct HF as (c & ids & n & H & HF). exists c, ids, n. split; auto. now apply sx_in.
  - destruct HF as (r & H & HF). destruct (GramFacts.forall2_in_r _ _ _ (sx_rules _ _ SK) _ H) as (r1 & Hr1 & HS). exists r1. split; auto. now rewrite <- (sh_lhs _ _ HS).
  - destruct HF as (ns & b & a & n & H & L & HF). destruct (sx_elem _ _ _ H) as [a' H']. exists ns, b, a', n. splits; auto; apply HF.
  - destruct HF as (r & n & H & HP & HF). destruct (GramFacts.forall2_in_r _ _ _ (sx_rules _ _ SK) _ H) as (r1 & Hr1 & HS). exists r1, n. splits; auto. now rewrite <- (sh_prec _ _ HS).
  - pose proof (sx_rules _ _ SK) as H. rewrite HF in H. now inversion H.
  - destruct HF as (n & b & a & H & HF). destruct (sx_elem _ _ _ HF) as [a' H']. exists n, b, a'. split; auto. now rewrite <- (sx_start _ _ SK).
  - destruct HF as (n & b & a & H1 & H2 & H3 & H4). destruct (sx_elem _ _ _ H1) as [a' H']. exists n, b, a'. splits; auto. intros r Hr E. destruct (GramFacts.forall2_in_l _ _ _ (sx_rules _ _ SK) _ Hr) as (r2 & Hr2 & HS). apply (H4 _ Hr2). now rewrite (sh_lhs _ _ HS).
  - destruct HF as (g & r & Hg & Hr). destruct (HW g Hg) as (S & R & g1 & H1 & IO & OR). destruct (io_lost g g1 S R IO OR r Hr) as (q & Hq). exists g1, q. auto.
  - destruct HF as (g & Hg & HC). destruct (HW g Hg) as (S & R & g1 & H1 & IO & OR). exists g1. split; auto. exact (io_conflicting g g1 S R IO OR HC).
Qed.
Context (b1 : built) (EX : expands ds1 b1) (FD : flat_decls ds1).
Lemma sx_flat : flat_decls ds2.
Proof.
  destruct FD as [F1 F2]. split.
  - intros n ms m. rewrite !(sx_class _ _ SK). apply F1.
  - intros d ns o al Hd He L m Hm. rewrite (sx_class _ _ SK). destruct (sx_elem ns o al) as (al' & r & Hr & He'); [exists d; auto|]. eapply F2; eauto.
Qed.
Lemma sx_self : no_self_fallback ds1 -> no_self_fallback ds2.
Proof. intros H fb ids Hi. apply H. now apply sx_in. Qed.
Lemma sx_begin : classes_begin ds1 -> classes_begin ds2.
Proof. intros H n ms. rewrite (sx_class _ _ SK). apply H. Qed.
Lemma in_rules l r c p ds : In (DRule l r c p) ds <-> In (mkDr l r c p) (rules_in ds).
Proof.
  induction ds as [|d ds IH]; [tauto|]. cbn. destruct d; cbn; rewrite <- ?IH; try (split; [intros [H|H]; [discriminate|auto]|auto]; fail).
  split; (intros [H|H]; [left; injection H as <- <- <- <-; reflexivity|auto]).
Qed.
Lemma sx_named : elems_named ds1 -> elems_named ds2.
Proof.
  intros EN lhs rhs c p toks o al H He ->. destruct (sx_elem [] o al) as (al' & [l r c' p'] & Hr & He'); [exists (mkDr lhs rhs c p); split; auto; now apply in_rules|]. apply in_rules in Hr. exact (EN _ _ _ _ _ _ _ Hr He' eq_refl).
Qed.
(** A list with the syntax of an accepted one has no fault in its syntax. *)
Theorem syntax_faults e : fault ds2 e -> beside_syntax e.
Proof.
  intros HF. assert (HD : beside_syntax e \/ ~ beside_syntax e) by (destruct e; cbn; tauto). destruct HD as [HD|HD]; auto. exfalso.
  apply (expanded_faultless ds1 b1 EX e); auto. apply sx_fault; auto. intros g2 WR2. pose proof (expands_written _ _ EX) as WR1.
  destruct (blocks_iso ds2 ds1 g2 (bt_grammar b1) WR2 WR1) as (S & R & H1 & H2).
  - exact (sx_rules _ _ (eq_sym SK)).
  - intros m. now rewrite (sx_class ds1 ds2 SK).
  - intros m. now rewrite (sx_assoc ds1 ds2 SK).
  - now rewrite (sx_start ds1 ds2 SK).
  - intros m q. rewrite (sx_assoc ds1 ds2 SK). apply (ex_assoc ds1 b1 EX).
  - exists S, R, (bt_grammar b1). auto.
Qed.
Theorem syntax_accepted : no_self_fallback ds1 -> elems_named ds1 -> classes_begin ds1 -> (exists b2, expands ds2 b2) <-> (forall e, beside_syntax e -> ~ fault ds2 e).
Proof.
  intros NS EN CB. rewrite (accepted_exactly ds2 (sx_self NS) (sx_named EN) (sx_begin CB) sx_flat). split; auto. intros H e HF. exact (H e (syntax_faults e HF) HF).
Qed.
Theorem syntax_refused fuel ord e : hash_order ord -> build fuel ord ds2 = GErr e -> beside_syntax e.
Proof. intros HO HB. apply syntax_faults. apply (FaultBack.rejected_for_a_reason fuel ord ds2 e HO); auto. intros _. exact sx_flat. Qed.
End Beside.
