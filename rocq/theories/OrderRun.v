(** Declarations in another order: the generated parsers return the same for every input that one
    of them accepts (C46). *)
From Coq Require Import Permutation.
From Verif Require FaultNone.
From Verif Require Import Base Syntax BaseFacts FrontEnd First States Actions Tables Runtime User Spec WfGrammar FirstFacts ClosureFacts AutoFacts LalrFacts ActFacts CompFacts TabFacts LookFacts PipeFacts RunFacts
  SoundFacts AbsFacts CompleteFacts RefFacts FrontFacts DeclSpec DeclFacts BuildFacts GramFacts LangFacts TypeFacts MeanSpec MeanFacts TypeDecl TreeSpec CycleFacts FaultSpec Main Claims2 Claims6 Claims9 Claims13 KeptFacts PrecSpec Claims15 Claims16
  OrderSpec OrderFacts IsoFacts OrderIso IsoRun.
Open Scope string_scope. Open Scope nat_scope. Open Scope list_scope.

(** ** Derivation trees of the two lists *)
Inductive dtree_alike (P : nat -> nat -> Prop) : dtree -> dtree -> Prop :=
| da_tok a : dtree_alike P (LTok a) (LTok a)
| da_rule i j ts us : P i j -> dtrees_alike P ts us -> dtree_alike P (LRule i ts) (LRule j us)
| da_none : dtree_alike P LNone LNone
| da_some t u : dtree_alike P t u -> dtree_alike P (LSome t) (LSome u)
with dtrees_alike (P : nat -> nat -> Prop) : list dtree -> list dtree -> Prop :=
| da_nil : dtrees_alike P [] []
| da_cons t u ts us : dtree_alike P t u -> dtrees_alike P ts us -> dtrees_alike P (t :: ts) (u :: us).

Section Meant.
Context (ds1 ds2 : list decl) (SW : same_words ds1 ds2) (p : drule -> bool) (P : nat -> nat -> Prop) (PL : places p (rules_in ds1) (rules_in ds2) P).
Context {V X E : Type} (sm : sem V X E) (tk1 tk2 : ident -> ident -> Prop) (TK : forall a b, tk1 a b -> tk2 a b).
Theorem meant_alike :
  (forall n w x x' v T, meant ds1 sm tk1 n w x x' v T -> exists U, meant ds2 sm tk2 n w x x' v U /\ dtree_alike P T U) /\
  (forall e w x x' v T, meant_elem ds1 sm tk1 e w x x' v T -> exists U, meant_elem ds2 sm tk2 e w x x' v U /\ dtree_alike P T U) /\
  (forall es w x x' vs Ts, meant_all ds1 sm tk1 es w x x' vs Ts -> exists Us, meant_all ds2 sm tk2 es w x x' vs Us /\ dtrees_alike P Ts Us).
Proof.
  apply meant_both.
  - intros a v b n x Ht Hs. exists (LTok a). split; [|constructor]. econstructor; eauto. eapply sw_stands; eauto.
  - intros i d w vs v x x1 x2 ts Hd _ (Us & HU & HA) Hr. destruct (pl_to _ _ _ _ PL i) as [j Hj]; [apply nth_error_Some; congruence|]. destruct (pl_same _ _ _ _ PL _ _ Hj) as (d' & D1 & D2). assert (d' = d) by congruence. subst d'.
    exists (LRule j Us). split; [|now constructor]. econstructor; eauto. now rewrite <- (sw_result ds1 ds2 SW).
  - intros n al w x x' v T _ (U & HU & HA). exists U. split; auto. now constructor.
  - intros n al x. exists LNone. split; constructor.
  - intros n al w x x' v T _ (U & HU & HA). exists (LSome U). split; constructor; auto.
  - intros ns o al a v b x L Ht Hi. exists (LTok a). split; [|constructor]. econstructor; eauto.
  - intros x. exists []. split; constructor.
  - intros e es w1 w2 x x1 x2 v vs T Ts _ (U & HU & HA) _ (Us & HUs & HAs). exists (U :: Us). split; [econstructor; eauto|now constructor].
Qed.
End Meant.

(** ** Trees of the two grammars *)
Section Trees.
Context (ds1 ds2 : list decl) (g1 g2 : grammar) (o1 o2 : list (nat * nat)) (P : nat -> nat -> Prop).
Context (WR1 : written ds1 g1) (WR2 : written ds2 g2) (SW : same_words ds1 ds2) (AU : forall n q, assoc_of ds1 n = Some q -> upper n).
Context (DE1 : declared ds1 g1 o1) (DE2 : declared ds2 g2 o2) (PL : places (weighed ds1) (rules_in ds1) (rules_in ds2) P).
Notation S := (sym_to g1 g2 o1 o2 P).
Notation N := (List.length (rules_in ds1)).
Notation R := (rule_to g1 g2 o1 o2 N P).
Let W1 := written_wf _ _ WR1.
Let W2 := written_wf _ _ WR2.
Let IO := proj1 (placed_iso ds1 ds2 g1 g2 WR1 WR2 SW AU o1 o2 P DE1 DE2 PL).
Let EN : List.length (rules_in ds2) = N := rules_len _ _ SW.

Lemma opt_alike Z X Z' Y : In (Z, X) o1 -> In (Z', Y) o2 -> S X Y -> exists m, at_name g1 Z m /\ at_name g2 Z' m /\ (upper m \/ lower m).
Proof.
  intros H1 H2 [(m & Km & B1 & B2)|[(Z2 & Z2' & m & J1 & J2 & B1 & B2 & Hm)|(B1 & B2 & _)]].
  - exfalso. destruct (opt_named _ _ _ DE1 _ _ H1) as (k & Hk). apply (known_opt k m Km). exact (at_fun _ _ _ _ B1 Hk).
  - pose proof (opt_uniq _ _ _ DE1 _ _ _ H1 J1) as ->. pose proof (opt_uniq _ _ _ DE2 _ _ _ H2 J2) as ->. eauto.
  - exfalso. destruct (opt_named _ _ _ DE1 _ _ H1) as (k & Hk). pose proof (at_fun _ _ _ _ Hk B1). discriminate.
Qed.
Lemma opt_rule ds g o r ru : declared ds g o -> nth_error (g_rules g) r = Some ru -> List.length (rules_in ds) <= r ->
  exists j e Z X, nth_error o j = Some (Z, X) /\ e < 2 /\ r = List.length (rules_in ds) + (2 * j + e) /\ r_lhs ru = X /\ map fst (r_rhs ru) = match e with 0 => [] | _ => [Z] end.
Proof.
  intros DE Hr L. assert (HL : r < List.length (g_rules g)) by (apply nth_error_Some; congruence). destruct (sd_split _ _ _ DE r HL) as [H|(j & e & [Z X] & Hj & He & ->)]; [lia|].
  exists j, e, Z, X. rewrite (sd_opt _ _ _ DE _ _ _ Hj He) in Hr. splits; auto; destruct e as [|[|e]]; try lia; cbn in Hr; injection Hr as <-; reflexivity.
Qed.
Lemma low_rule r q : r < N -> R r q -> P r q.
Proof. intros L [H|(j & j' & e & Z & Z' & X & Y & m & _ & _ & _ & _ & _ & _ & -> & _)]; auto; lia. Qed.

Context {V : Type} (mt1 mt2 : nat -> nat -> Prop).
Notation tree := (tree (nat * V)).
Notation dec1 := (dec g1 N). Notation dec2 := (dec g2 (List.length (rules_in ds2))).
Notation alike := (tree_alike S R (M1 := nat * V) (M2 := nat * V)).

Theorem dec_alike :
  (forall X (tr : tree), derives g1 mt1 X tr -> toks_ok g1 (yield tr) -> forall Y (tr2 : tree), derives g2 mt2 Y tr2 -> toks_ok g2 (yield tr2) -> S X Y -> dtree_alike P (dec1 tr) (dec2 tr2) -> alike tr tr2) /\
  (forall Xs (ts : list tree), derives_all g1 mt1 Xs ts -> toks_ok g1 (flat_map yield ts) -> forall Ys (us : list tree), derives_all g2 mt2 Ys us -> toks_ok g2 (flat_map yield us) -> Forall2 S Xs Ys ->
     dtrees_alike P (map dec1 ts) (map dec2 us) -> trees_alike S R ts us).
Proof.
  apply derives_both.
  - intros a m X _ HO Y tr2 D2 HO2 HS HA. cbn [dec] in HA. destruct tr2 as [b m'|q us]; cbn [dec] in HA.
    + assert (E : gname g2 b = gname g1 a) by now inversion HA. constructor. left. destruct (term_name ds1 g1 o1 DE1 W1 a (HO a m (or_introl eq_refl))) as (A1 & U & _). destruct (term_name ds2 g2 o2 DE2 W2 b (HO2 b m' (or_introl eq_refl))) as (A2 & _).
      exists (gname g1 a). splits; auto; [now right; left|]. now rewrite <- E.
    + destruct (q <? List.length (rules_in ds2)); [inversion HA|]. destruct us; inversion HA.
  - intros r ru ts Hr HD IH HO Y tr2 D2 HO2 HS HA. cbn [dec] in HA. destruct (Nat.ltb_spec r N) as [L|L].
    + destruct tr2 as [b m'|q us]; cbn [dec] in HA; [inversion HA|]. destruct (Nat.ltb_spec q (List.length (rules_in ds2))) as [L2|L2]; [|destruct us; inversion HA].
      inversion HA as [|? ? ? ? HP HAs| |]; subst. inversion D2 as [|? qu ? Hq HDs]; subst. assert (HR : R r q) by now left. destruct (io_known _ _ _ _ IO _ _ _ HR Hr) as (qu' & Hq' & M). assert (qu' = qu) by congruence. subst qu'.
      constructor; auto. eapply IH; eauto. apply M.
    + destruct (opt_rule _ _ _ _ _ DE1 Hr L) as (j & e & Z & X & Hj & He & -> & EX & ER). destruct tr2 as [b m'|q us]; cbn [dec] in HA; [destruct ts; inversion HA|].
      destruct (Nat.ltb_spec q (List.length (rules_in ds2))) as [L2|L2]; [destruct ts; inversion HA|]. inversion D2 as [|? qu ? Hq HDs]; subst. destruct (opt_rule _ _ _ _ _ DE2 Hq L2) as (j' & e' & Z' & Y & Hj' & He' & -> & EY & ER').
      rewrite EY in HS. destruct (opt_alike _ _ _ _ (nth_error_In _ _ Hj) (nth_error_In _ _ Hj') HS) as (m & B1 & B2 & Hm). rewrite ER in HD, IH. rewrite ER' in HDs. rewrite EN in *.
      assert (HZ : S Z Z') by (left; exists m; splits; auto; now apply known_id).
      assert (HR : e' = e -> R (N + (2 * j + e)) (N + (2 * j' + e'))) by (intros ->; right; exists j, j', e, Z, Z', (r_lhs ru), Y, m; splits; auto).
      destruct e as [|[|e]]; [| |lia]; (destruct e' as [|[|e']]; [| |lia]); cbn in HD, HDs.
      * inversion HD; subst. inversion HDs; subst. constructor; [now apply HR|constructor].
      * inversion HD; subst. inversion HDs; subst. inversion HA.
      * inversion HD; subst. inversion HDs; subst. inversion HA.
      * constructor; [now apply HR|]. inversion HD as [|? u ? ? Du Dn]; subst. inversion Dn; subst. inversion HDs as [|? u' ? ? Du' Dn']; subst. inversion Dn'; subst. cbn [map] in *. inversion HA; subst.
        apply (IH HO [Z'] [u']); auto. repeat constructor. auto.
  - intros _ Ys us D2 _ HF HA. inversion HA as [H0 H1|]; subst. destruct us; [constructor|discriminate].
  - intros X tr Xs ts _ IH _ IHs HO Ys us D2 HO2 HF HA. inversion HF as [|? Y ? Ys' HS HF']; subst. inversion D2 as [|? u ? us' Du Dus]; subst. cbn in HO, HO2, HA. apply toks_app in HO as [Oa Ob], HO2 as [Oc Od]. inversion HA; subst. constructor; [eapply IH; eauto|eapply IHs; eauto].
Qed.
End Trees.

Section Back.
Context (ds1 ds2 : list decl) (g1 g2 : grammar) (o1 o2 : list (nat * nat)) (P : nat -> nat -> Prop).
Context (DE1 : declared ds1 g1 o1) (DE2 : declared ds2 g2 o2) (W1 : wf_grammar g1) (W2 : wf_grammar g2) (SW : same_words ds1 ds2) (FU : forall n c, fallback_of ds1 n = Some c -> upper n).
Notation S := (sym_to g1 g2 o1 o2 P).

Lemma fb_named g X c : wf_grammar g -> sy_fb (gsym g X) = Some c -> at_name g c (gname g c).
Proof.
  intros W H. unfold gsym in H. destruct (nth_error (g_syms g) X) as [s|] eqn:E; [rewrite (nth_error_nth _ _ _ E) in H|apply nth_error_None in E; rewrite nth_overflow in H by auto; discriminate].
  apply gname_at. eapply (wg_fb g W); eauto.
Qed.
Lemma fb_upper ds g o X c : declared ds g o -> sy_fb (gsym g X) = Some c -> upper (gname g c).
Proof.
  intros DE H. unfold gsym in H. destruct (nth_error (g_syms g) X) as [s|] eqn:E; [rewrite (nth_error_nth _ _ _ E) in H|apply nth_error_None in E; rewrite nth_overflow in H by auto; discriminate]. eapply (de_fbname _ _ _ DE); eauto.
Qed.
Lemma fb_opt ds g o Z X : declared ds g o -> (forall n c, fallback_of ds n = Some c -> upper n) -> In (Z, X) o -> sy_fb (gsym g X) = None.
Proof.
  intros DE HU H. destruct (opt_named _ _ _ DE _ _ H) as (k & Hk). destruct (sym_decl _ _ _ DE _ _ Hk) as (_ & E & _); [discriminate|]. destruct (sy_fb (gsym g X)) as [c|]; auto. symmetry in E. apply HU in E. exfalso. apply (opt_not_id k (optional_name k)); auto.
Qed.
Lemma fb_anon ds g o X : declared ds g o -> at_name g X "" -> sy_fb (gsym g X) = None.
Proof. intros DE (s & Hs & En). unfold gsym. rewrite (nth_error_nth _ _ _ Hs). apply (de_anon _ _ _ DE _ _ Hs En). Qed.
Lemma fb_names X Y : S X Y -> option_map (gname g1) (sy_fb (gsym g1 X)) = option_map (gname g2) (sy_fb (gsym g2 Y)).
Proof.
  assert (FU2 : forall n c, fallback_of ds2 n = Some c -> upper n) by (intros n c; rewrite <- (sw_fb _ _ SW); apply FU).
  intros [(m & Km & A1 & A2)|[(Z & Z' & m & I1 & I2 & _)|(A1 & A2 & _)]].
  - destruct (sym_decl _ _ _ DE1 _ _ A1 (known_ne _ Km)) as (_ & -> & _). destruct (sym_decl _ _ _ DE2 _ _ A2 (known_ne _ Km)) as (_ & -> & _). apply SW.
  - now rewrite (fb_opt _ _ _ _ _ DE1 FU I1), (fb_opt _ _ _ _ _ DE2 FU2 I2).
  - now rewrite (fb_anon _ _ _ _ DE1 A1), (fb_anon _ _ _ _ DE2 A2).
Qed.
Lemma fb_none X Y : S X Y -> sy_fb (gsym g1 X) = None -> sy_fb (gsym g2 Y) = None.
Proof. intros HS H. pose proof (fb_names _ _ HS) as E. rewrite H in E. now destruct (sy_fb (gsym g2 Y)). Qed.
Lemma fb_some X Y c : S X Y -> sy_fb (gsym g1 X) = Some c -> exists c', sy_fb (gsym g2 Y) = Some c' /\ S c c'.
Proof.
  intros HS H. pose proof (fb_names _ _ HS) as E. rewrite H in E. destruct (sy_fb (gsym g2 Y)) as [c'|] eqn:E2; [|discriminate]. cbn in E. injection E as E. exists c'. split; auto. left. exists (gname g1 c). splits.
  - right. left. eapply fb_upper; eauto.
  - eapply fb_named; eauto.
  - rewrite E. eapply fb_named; eauto.
Qed.
End Back.

Lemma sw_types ds1 ds2 : same_words ds1 ds2 -> types_ok ds1 -> types_ok ds2.
Proof.
  intros SW [T1 T2 T3 T4]. constructor.
  - intros a c. rewrite <- (sw_fb _ _ SW), <- !(sw_name ds1 ds2 SW). apply T1.
  - intros w n ms. rewrite <- (sw_wild _ _ SW), <- (sw_class _ _ SW). apply T2.
  - intros w d ns o al. rewrite <- (sw_wild _ _ SW). intros Hw Hd. apply (Permutation_in _ (Permutation_sym (sw_rules _ _ SW))) in Hd. eapply T3; eauto.
  - destruct T4 as [T4|(T4 & T5 & T6)]; [left|right].
    + intros s. rewrite <- (sw_start _ _ SW), <- (sw_name ds1 ds2 SW). apply T4.
    + rewrite <- (sw_dflt _ _ SW), <- (sw_extra _ _ SW). splits; auto. intros n. rewrite <- (sw_type _ _ SW). apply T6.
Qed.

Theorem same_answers ds1 ds2 b1 b2 {V X E} (sm : sem V X E) : expands ds1 b1 -> usable ds1 b1 -> expands ds2 b2 -> usable ds2 b2 -> same_words ds1 ds2 ->
  filter (weighed ds1) (rules_in ds1) = filter (weighed ds1) (rules_in ds2) -> wildcard_of ds1 = None -> (forall a l, assoc_of ds1 a = Some (l, ANone) -> fallback_of ds1 a = None) -> types_ok ds1 ->
  forall ks1 ks2, tokens_wf b1 ks1 -> tokens_wf b2 ks2 -> reading b1 sm ks1 = reading b2 sm ks2 ->
  forall x r x', answers b1 sm x ks1 r x' -> answers_or_overflows b2 sm x ks2 r x'.
Proof.
  intros EX1 US1 EX2 US2 SW KO HW HT TO1 ks1 ks2 K1 K2 EQ x r x' (n & pp & H & Hd). pose proof (sw_types _ _ SW TO1) as TO.
  set (g1 := bt_grammar b1). set (g2 := bt_grammar b2). set (h2 := user_hooks (bt_tables b2) sm).
  destruct (reading_eq ds1 b1 EX1 US1 sm ks1 K1) as (ER1 & _ & Hok1). destruct (reading_eq ds2 b2 EX2 US2 sm ks2 K2) as (ER2 & _ & Hok2).
  destruct (ex_decl ds1 b1 EX1) as (o1 & DE1). destruct (ex_decl ds2 b2 EX2) as (o2 & DE2). destruct (de_start _ _ _ DE1) as (s & Hs & As & Low). destruct (de_start _ _ _ DE2) as (s' & Hs' & As' & _).
  assert (s' = s) by (rewrite <- (sw_start _ _ SW) in Hs'; congruence). subst s'. pose proof (ex_pipe ds1 b1 EX1 US1) as P1. pose proof (ex_pipe ds2 b2 EX2 US2) as P2.
  pose proof (expands_written _ _ EX1) as WR1. pose proof (expands_written _ _ EX2) as WR2. pose proof (ex_assoc ds1 b1 EX1) as AU.
  destruct (perm_places (weighed ds1) _ _ (sw_rules _ _ SW) KO) as [Q PL]. destruct (placed_iso ds1 ds2 g1 g2 WR1 WR2 SW AU o1 o2 Q DE1 DE2 PL) as [IO OR].
  destruct (compression_kept ds1 b1 EX1 sm x ks1 r x' US1 HW HT K1) as [HP _]. specialize (HP n pp H Hd).
  destruct (rparse_kept g1 _ _ _ _ P1 _ _ _ _ _ _ HP x [] []) as (tr & m & K & Hy & He & Ha); [constructor|]. cbn in Hy.
  assert (HO : toks_ok g1 (yield tr)) by (exact (eq_ind_r (fun l => toks_ok g1 l) Hok1 Hy)).
  pose proof (proj1 (kept_derives g1 _ _ _ _ P1) _ _ _ _ K (au_pos _ _ (ex_aut ds1 b1 EX1)) HO) as D.
  assert (HM : meant ds1 sm (taken ds1) s (reading b1 sm ks1) x x' (snd m) (Claims15.dec g1 (List.length (rules_in ds1)) tr)).
  { rewrite <- ER1, <- Hy. refine (proj1 (proj1 (tree_meant ds1 g1 o1 DE1 _ _ _ _ P1 sm _ _ (linked_taken ds1 g1 o1 DE1 (ex_wf ds1 b1 EX1))) _ _ D HO _ _ _ He) s As (or_intror Low)). }
  destruct (proj1 (meant_alike ds1 ds2 SW (weighed ds1) Q PL sm (taken ds1) (taken ds2) (sw_taken ds1 ds2 SW)) _ _ _ _ _ _ HM) as (U & HU & HA). rewrite EQ in HU.
  destruct (proj1 (meant_tree ds2 g2 o2 DE2 _ _ _ _ P2 sm _ _ (linked_taken ds2 g2 o2 DE2 (ex_wf ds2 b2 EX2)) (ex_sane ds2 b2 EX2 TO) (ex_auto ds2 b2 EX2) (fun a Y H => H)) _ _ _ _ _ _ HU (g_start g2) _ As' ER2 Hok2) as (tr2 & m2 & HD & Hy2 & He2 & Hv & HS & ET).
  { intros a m0 Hin. now apply (tokval_all ds2 b2 EX2 US2 sm ks2 K2 a m0). }
  assert (HO2 : toks_ok g2 (yield tr2)) by (exact (eq_ind_r (fun l => toks_ok g2 l) Hok2 Hy2)).
  assert (ER : r = root_value ds1 sm s (snd m)) by (eapply (root_eq ds1 b1 EX1 US1 sm (tok_match g1)); eauto).
  assert (Ha2 : h_accept h2 m2 = Some r).
  { destruct (h_accept h2 m2) as [r2|] eqn:Ea.
    - f_equal. rewrite ER, <- Hv. transitivity (root_value ds2 sm s (snd m2)); [eapply (root_eq ds2 b2 EX2 US2 sm (tok_match g2)); eauto|]. unfold root_value. now rewrite (sw_name ds1 ds2 SW).
    - exfalso. apply (val_acc g2 _ _ _ _ P2 (ex_sane ds2 b2 EX2 TO) sm _ m2 HS Ea). }
  rewrite <- ET in HA. pose proof (proj1 (dec_alike ds1 ds2 g1 g2 o1 o2 Q WR1 WR2 SW AU DE1 DE2 PL (tok_match g1) (tok_match g2)) _ _ D HO _ _ HD HO2 (io_start _ _ _ _ IO) HA) as TA.
  assert (FU : forall n c, fallback_of ds1 n = Some c -> upper n) by (destruct EX1 as (fuel & ord & Ho & HB); eapply fallback_upper; eauto).
  pose proof (proj1 (kept_alike g1 g2 _ _ IO OR (proj1 (FaultNone.expanded_decided ds1 b1 EX1)) _ _ _ _ P1 _ _ _ _ P2 (fb_some ds1 ds2 g1 g2 o1 o2 Q DE1 DE2 (ex_wf ds1 b1 EX1) (ex_wf ds2 b2 EX2) SW FU) (fb_none ds1 ds2 g1 g2 o1 o2 Q DE1 DE2 SW FU)) _ _ _ _ K 0 (g_start g2) tr2 0) as K2'.
  apply (compression_kept ds2 b2 EX2 sm x ks2 r x' US2); auto.
  - now rewrite <- (sw_wild _ _ SW).
  - intros a l. rewrite <- (sw_assoc _ _ SW), <- (sw_fb _ _ SW). apply HT.
  - fold g2 h2. rewrite <- Hy2. eapply (kept_rparse g2 _ _ _ _ P2); eauto. apply K2'; auto.
    + intros a v Hin. destruct (HO a v Hin) as [_ L]. rewrite (proj2 (wg_term g1 (ex_wf ds1 b1 EX1) a ltac:(pose proof (wg_dflt_range g1 (ex_wf ds1 b1 EX1)); lia)) L). discriminate.
    + rewrite (proj2 (wg_term g1 (ex_wf ds1 b1 EX1) 0 ltac:(pose proof (wg_dflt_range g1 (ex_wf ds1 b1 EX1)); pose proof (wg_nterm_pos g1 (ex_wf ds1 b1 EX1)); lia)) (wg_nterm_pos g1 (ex_wf ds1 b1 EX1))). discriminate.
    + apply twin_0.
    + apply IO.
    + apply IO.
Qed.
