(** Grammars of operators: exactly the trees nested as declared are accepted (C41). *)
From Verif Require Import Base Syntax BaseFacts FrontEnd First States Actions Tables Runtime User Spec WfGrammar FirstFacts ClosureFacts AutoFacts LalrFacts ActFacts CompFacts LookFacts PipeFacts RunFacts
  SoundFacts SafeFacts AbsFacts HaltFacts CompleteFacts RefFacts FrontFacts BuildFacts DeclSpec DeclFacts GramFacts LangFacts TypeFacts MeanSpec MeanFacts TypeDecl TreeSpec Main Claims2 Claims6 Claims9
  FaultDuel FaultAct FaultBack KeptFacts PrecSpec Claims15 OpFacts.
Open Scope string_scope. Open Scope nat_scope. Open Scope list_scope.

(** ** A meaning with its tree as a tree of the grammar *)
Section Back.
Context (ds : list decl) (g : grammar) (opts : list (nat * nat)) (DE : declared ds g opts).
Context (p p3 p4 : pst) (t : tables) (P : Pipe g p p3 p4 t).
Let W := pp_wf _ _ _ _ _ P.
Context {V X E : Type} (sm : sem V X E).
Notation h := (user_hooks t sm).
Notation N := (List.length (rules_in ds)).
Notation dec := (dec g N).
Context (mt : nat -> nat -> Prop) (tk : ident -> ident -> Prop) (LK : linked g mt tk).
Let LU := lk_up _ _ _ LK.
Notation toks := (map (fun q : nat * (nat * V) => (gname g (fst q), snd (snd q)))).
Notation tok_ok := (toks_ok g).
Hypothesis TS : type_sane g.
Hypothesis A1 : auto_one g.
Notation yes := (fun (_ : ty) (_ : V) => true).
Notation st := (stacked g t yes).
Notation tv := (tokval g t yes).
Hypothesis MTK : forall a Y, mt a Y -> tok_match g a Y.

Theorem meant_tree :
  (forall a w x x' v T, meant ds sm tk a w x x' v T -> forall Y ts, at_name g Y a -> toks ts = w -> tok_ok ts -> (forall b m, In (b, m) ts -> tv b m) ->
     exists tr m, derives g mt Y tr /\ yield tr = ts /\ eval h tr x = EvOk x' m /\ snd m = v /\ st Y m /\ dec tr = T) /\
  (forall e w x x' v T, meant_elem ds sm tk e w x x' v T -> forall Y ts, elem_sym g opts e Y -> toks ts = w -> tok_ok ts -> (forall b m, In (b, m) ts -> tv b m) ->
     exists tr m, derives g mt Y tr /\ yield tr = ts /\ eval h tr x = EvOk x' m /\ snd m = v /\ st Y m /\ dec tr = T) /\
  (forall es w x x' vs Ts, meant_all ds sm tk es w x x' vs Ts -> forall Ys ts, Forall2 (elem_sym g opts) es Ys -> toks ts = w -> tok_ok ts -> (forall b m, In (b, m) ts -> tv b m) ->
     exists trs ms, derives_all g mt Ys trs /\ flat_map yield trs = ts /\ eval_list h trs x = EvOk x' ms /\ map snd ms = vs /\ Forall2 st Ys ms /\ map dec trs = Ts).
Proof.
  assert (H1 : forall a v ts, toks ts = [(a, v)] -> tok_ok ts -> exists x m, ts = [(x, m)] /\ gname g x = a /\ snd m = v /\ 0 < x < g_nterm g).
  { intros a v ts Hw HO. destruct ts as [|[x m] [|? ?]]; try discriminate. injection Hw as H0 H1. exists x, m. pose proof (HO x m (or_introl eq_refl)). splits; auto; lia. }
  assert (Hin : forall Y Z ru, In (Y, Z) opts -> In ru (opt_made g (Y, Z)) -> exists r, nth_error (g_rules g) r = Some ru /\ N <= r).
  { intros Y Z ru HY Hru. destruct (de_rules _ _ _ DE) as (rs & HRs & HF). assert (Hi : In ru (flat_map (opt_made g) opts)) by (apply in_flat_map; eauto). apply In_nth_error in Hi as [k Hk].
    exists (N + k). split; [|lia]. pose proof (forall2_len _ _ _ HF) as HLn. rewrite HRs, nth_error_app2 by lia. now replace (N + k - List.length rs) with k by lia. }
  apply meant_both.
  - intros a v b k x Ht Hs Y ts HY Hw Hok HT. destruct (H1 a v ts Hw Hok) as (c & m & -> & <- & Hv & Hc). destruct (LU c b Hc Ht) as (B & HB & HM). assert (HM' : mt c Y) by (apply HM; eapply stands_up; eauto).
    exists (TTok c m), m. splits; auto; [now constructor|]. eapply val_tok; eauto. apply HT. now left.
  - intros i d w vs v x x1 x2 Ts Hd _ IH HC Y ts HY Hw Hok HT. destruct (decl_at ds g opts DE i d Hd) as (ru & Hr & RM). destruct (IH (map fst (r_rhs ru)) ts) as (us & ms & Hus & Hy & Hev & Hvs & HS & HTs); auto; [apply RM|].
    rewrite <- (made_code ds g opts DE sm d ru vs x1 RM), <- Hvs in HC. destruct (reduce_back g _ _ _ _ P sm A1 i ru ms x1 x2 v Hr HS HC) as (m & Hh & Hm & HSm).
    assert (EY : Y = r_lhs ru) by (apply (de_uniq _ _ _ DE Y (r_lhs ru) (d_lhs d)); auto; [apply RM|apply lower_nonempty, (rm_low _ _ _ _ RM)]). subst Y.
    exists (TNode i us), m. splits; auto; [econstructor; eauto|rewrite eval_node, Hev; unfold finish; now rewrite Hh|]. cbn [Claims15.dec]. assert (L : i < N) by (apply nth_error_Some; congruence). apply Nat.ltb_lt in L. now rewrite L, HTs.
  - intros k al w x x' v T _ IH Y ts [Hk HY] Hw Hok HT. eauto.
  - intros k al x Y ts (Hk & Z & HZ & HZk) Hw Hok HT. destruct ts as [|]; [|discriminate]. destruct (Hin Z Y (mkRule Y [] COptNone None None) HZ) as (r & Hr & Lr); [left; reflexivity|].
    destruct (reduce_back g _ _ _ _ P sm A1 r _ [] x x (v_none sm) Hr) as (m & Hh & Hm & HSm); [constructor|reflexivity|].
    exists (TNode r []), m. splits; auto; [apply (d_node g mt r _ [] Hr); constructor|rewrite eval_node; cbn [eval_list]; unfold finish; now rewrite Hh|]. cbn [Claims15.dec]. apply Nat.ltb_ge in Lr. now rewrite Lr.
  - intros k al w x x' v T _ IH Y ts (Hk & Z & HZ & HZk) Hw Hok HT. destruct (IH Z ts HZk Hw Hok HT) as (tr & m & Hd & Hy & Hev & Hv & HS & ET).
    destruct (Hin Z Y (mkRule Y [(Z, true)] COptSome None (rhs_sym_prec g Z)) HZ) as (r & Hr & Lr); [right; left; reflexivity|].
    destruct (reduce_back g _ _ _ _ P sm A1 r _ [m] x' x' (v_some sm v) Hr) as (m' & Hh & Hm & HSm); [cbn; constructor; auto|cbn; now rewrite Hv|].
    exists (TNode r [tr]), m'. splits; auto.
    + apply (d_node g mt r _ [tr] Hr). cbn. constructor; [auto|constructor].
    + cbn. now rewrite app_nil_r.
    + rewrite eval_node. cbn [eval_list]. rewrite Hev. unfold finish. now rewrite Hh.
    + cbn [Claims15.dec]. apply Nat.ltb_ge in Lr. now rewrite Lr, ET.
  - intros ns o al a v b x Hl Ht Hb Y ts He Hw Hok HT. destruct (H1 a v ts Hw Hok) as (c & m & -> & <- & Hv & Hc). destruct (LU c b Hc Ht) as (B & HB & HM).
    assert (HM' : mt c Y).
    { apply HM. destruct ns as [|n1 [|n2 ns]]; try (simpl in Hl; lia). destruct He as (HU & _ & ms & HK & HF). right. exists ms. split; auto.
      destruct (forall2_in_r _ _ _ HF _ Hb) as (c' & Hc' & Ac). rewrite (de_uniq _ _ _ DE B c' b); auto. rewrite Forall_forall in HU. now apply upper_nonempty, HU. }
    exists (TTok c m), m. splits; auto; [now constructor|]. eapply val_tok; eauto. apply HT. now left.
  - intros x Ys ts HF Hw _ _. inversion HF; subst. destruct ts; [|discriminate]. exists [], []. splits; auto; constructor.
  - intros e es w1 w2 x x1 x2 v vs T Ts _ IH1 _ IH2 Ys ts HF Hw Hok HT. inversion HF as [|e' Y es' Ys' He HF']; subst. apply map_eq_app in Hw as (ts1 & ts2 & -> & E1 & E2). apply toks_app in Hok as [O1 O2].
    destruct (IH1 Y ts1 He E1 O1) as (tr & m & Ht & Hy & Hev & Hv & HS & ET); [intros; apply HT, in_app_iff; auto|].
    destruct (IH2 Ys' ts2 HF' E2 O2) as (us & ms & Hus & Hys & Hevs & Hvs & HSs & ETs); [intros; apply HT, in_app_iff; auto|].
    exists (tr :: us), (m :: ms). splits; [constructor; auto|cbn; now rewrite Hy, Hys|cbn [eval_list]; now rewrite Hev, Hevs|cbn; now rewrite Hv, Hvs|constructor; auto|cbn; now rewrite ET, ETs].
Qed.
End Back.

Lemma forall2_nth_r {S T} (Q : S -> T -> Prop) l m : Forall2 Q l m -> forall i y, nth_error m i = Some y -> exists x, nth_error l i = Some x /\ Q x y.
Proof. induction 1; intros [|i] z Hz; try discriminate; cbn in *; eauto. injection Hz as <-. eauto. Qed.

(** ** The grammar made from declarations of operators *)
Section Made.
Context (ds : list decl) (g : grammar) (opts : list (nat * nat)) (DE : declared ds g opts).
Context (p p3 p4 : pst) (t : tables) (P : Pipe g p p3 p4 t).
Let W := pp_wf _ _ _ _ _ P.
Notation N := (List.length (rules_in ds)).
Notation dec := (dec g N).
Context (s n : ident) (OP : operators ds s n).
Notation rh := (rh g).
Notation nr := (List.length (g_rules g)).

Lemma no_opts Y Z : ~ In (Y, Z) opts.
Proof.
  intros H. destruct (de_opt4 _ _ _ DE _ _ H) as (d & k & al & Hd & He & _). destruct (op_rule _ _ _ OP d Hd) as [(_ & e & E & al' & E')|(_ & _ & _ & HE & _)].
  - rewrite E in He. destruct He as [He|[]]. congruence.
  - destruct (HE _ He) as [(al' & E')|(a & _ & _ & al' & E')]; discriminate.
Qed.
Lemma made_at r : r < nr -> r < N /\ exists d, nth_error (rules_in ds) r = Some d /\ rule_made g opts d (grule g r).
Proof.
  intros L. destruct (nth_error (g_rules g) r) as [ru|] eqn:Hr; [|apply nth_error_None in Hr; lia]. rewrite (grule_nth g _ _ Hr).
  destruct (rule_at ds g opts DE r ru Hr) as [H|(_ & Y & Z & H & _)]; auto. exfalso. eapply no_opts; eauto.
Qed.
Lemma rule_made_at r d : nth_error (rules_in ds) r = Some d -> r < nr /\ rule_made g opts d (grule g r).
Proof. intros H. destruct (decl_at ds g opts DE r d H) as (ru & Hr & RM). rewrite (grule_nth g _ _ Hr). split; auto. apply nth_error_Some. congruence. Qed.

Lemma tok_term a Y : is_terminal_ident a = true -> class_of ds a = None -> at_name g Y a -> is_term g Y.
Proof.
  intros U HC HY. eapply named_term; eauto.
Qed.

Section Sym.
Context (Nn : nat) (HN : at_name g Nn n).
Lemma low_n : lower n. Proof. exact (op_low _ _ _ OP). Qed.
Lemma n_kind : kind_at g Nn = Some KNonTerm.
Proof. eapply lower_kind; eauto. exact low_n. Qed.
Lemma operand_sym e Y : operand n e -> elem_sym g opts e Y -> Y = Nn.
Proof. intros (al & ->) [_ HY]. cbn in HY. eapply de_uniq; eauto. apply lower_nonempty, low_n. Qed.
Lemma token_sym a e Y : is_token ds a e -> elem_sym g opts e Y -> at_name g Y a /\ is_term g Y.
Proof. intros (U & HC & al & ->) [_ HY]. cbn in HY. split; auto. eapply tok_term; eauto. Qed.

Lemma sym_at r d k Y : nth_error (rules_in ds) r = Some d -> d_lhs d = n -> nth_error (rh r) k = Some Y ->
  exists e, nth_error (d_rhs d) k = Some e /\ ((operand n e /\ Y = Nn) \/ exists a, is_token ds a e /\ at_name g Y a /\ is_term g Y).
Proof.
  intros Hd HL HY. destruct (rule_made_at r d Hd) as [Lr RM]. destruct (forall2_nth_r _ _ _ (rm_rhs _ _ _ _ RM) _ _ HY) as (e & He & HS). exists e. split; auto.
  destruct (op_rule _ _ _ OP d (nth_error_In _ _ Hd)) as [(E & _)|(_ & _ & _ & HE & _)]; [exfalso; apply (op_new _ _ _ OP); congruence|].
  destruct (HE e (nth_error_In _ _ He)) as [Ho|(a & Ha)]; [left|right].
  - split; auto. eapply operand_sym; eauto.
  - exists a. split; auto. eapply token_sym; eauto.
Qed.
Lemma sym_n r d k : nth_error (rules_in ds) r = Some d -> d_lhs d = n -> nth_error (rh r) k = Some Nn -> exists e, nth_error (d_rhs d) k = Some e /\ operand n e.
Proof.
  intros Hd HL HY. destruct (sym_at r d k Nn Hd HL HY) as (e & He & [[Ho _]|(a & _ & _ & Ht)]); eauto. exfalso. unfold is_term in Ht. rewrite n_kind in Ht. discriminate.
Qed.
Lemma sym_t r d k Y : nth_error (rules_in ds) r = Some d -> d_lhs d = n -> nth_error (rh r) k = Some Y -> Y <> Nn ->
  exists e a, nth_error (d_rhs d) k = Some e /\ is_token ds a e /\ at_name g Y a /\ is_term g Y.
Proof. intros Hd HL HY NE. destruct (sym_at r d k Y Hd HL HY) as (e & He & [[_ E]|(a & Ha & Hn & Ht)]); [contradiction|]. exists e, a. auto. Qed.
Lemma two_at {A} (l : list A) k x y : nth_error l k = Some x -> nth_error l (S k) = Some y -> exists l1 l2, l = l1 ++ x :: y :: l2 /\ List.length l1 = k.
Proof.
  intros H1 H2. apply nth_error_split in H1 as (l1 & l2 & -> & <-). rewrite nth_error_app2 in H2 by lia. replace (S (List.length l1) - List.length l1) with 1 in H2 by lia. destruct l2 as [|z l2]; [discriminate|]. injection H2 as ->. eauto.
Qed.
Lemma two_first {A} (l : list A) x y : nth_error l 0 = Some x -> nth_error l 1 = Some y -> exists l2, l = x :: y :: l2.
Proof. intros H1 H2. destruct (two_at l 0 x y H1 H2) as ([|? ?] & l2 & -> & E); [|discriminate]. exists l2. reflexivity. Qed.
Lemma no_two r d k : nth_error (rules_in ds) r = Some d -> d_lhs d = n -> nth_error (rh r) k = Some Nn -> nth_error (rh r) (S k) <> Some Nn.
Proof.
  intros Hd HL H1 H2. destruct (sym_n r d k Hd HL H1) as (e & He & Oe), (sym_n r d (S k) Hd HL H2) as (e' & He' & Oe').
  destruct (op_rule _ _ _ OP d (nth_error_In _ _ Hd)) as [(E & _)|(_ & _ & _ & _ & HA)]; [apply (op_new _ _ _ OP); congruence|].
  destruct (two_at _ _ _ _ He He') as (l1 & l2 & E & _). exact (HA _ _ _ _ E Oe Oe').
Qed.

Theorem made_opgram r0 d0 : nth_error (rules_in ds) r0 = Some d0 -> d_lhs d0 = s -> at_name g (g_start g) s -> opgram g r0 Nn.
Proof.
  intros Hd0 HL0 HS. destruct (rule_made_at r0 d0 Hd0) as [L0 RM0].
  assert (Low : lower s) by (rewrite <- HL0; apply RM0).
  assert (E0 : rh r0 = [Nn]).
  { destruct (op_rule _ _ _ OP d0 (nth_error_In _ _ Hd0)) as [(_ & e & E & Oe)|(E & _)]; [|exfalso; apply (op_new _ _ _ OP); congruence].
    pose proof (rm_rhs _ _ _ _ RM0) as HF. rewrite E in HF. unfold OpFacts.rh. apply f2_cons_l in HF as (Y & m' & Em & He & F). apply f2_nil_l in F. rewrite Em, F. f_equal. eapply operand_sym; eauto. }
  assert (HO : forall r, r < nr -> r <> r0 -> exists d, nth_error (rules_in ds) r = Some d /\ d_lhs d = n /\ rule_made g opts d (grule g r)).
  { intros r Lr NE. destruct (made_at r Lr) as (_ & d & Hd & RM). exists d. splits; auto. destruct (op_rule _ _ _ OP d (nth_error_In _ _ Hd)) as [(E & _)|(E & _)]; auto. exfalso. apply NE. eapply (op_top _ _ _ OP); eauto. }
  constructor; auto.
  - eapply de_uniq; eauto; [|apply lower_nonempty, Low]. rewrite <- HL0. apply RM0.
  - apply n_kind.
  - intros E. apply (op_new _ _ _ OP). apply at_gname in HS, HN. congruence.
  - intros r Lr NE. destruct (HO r Lr NE) as (d & Hd & HL & RM). eapply de_uniq; [exact DE|apply RM|rewrite HL; exact HN|]. apply lower_nonempty. apply RM.
  - intros r Lr NE. destruct (HO r Lr NE) as (d & Hd & HL & RM). pose proof (rm_rhs _ _ _ _ RM) as HF. fold (rh r) in HF. destruct (op_rule _ _ _ OP d (nth_error_In _ _ Hd)) as [(E & _)|(_ & H1 & H2 & _)]; [exfalso; apply (op_new _ _ _ OP); congruence|]. split.
    + intros E. rewrite E in HF. inversion HF. congruence.
    + intros E. destruct (sym_n r d 0 Hd HL ltac:(now rewrite E)) as (e & He & Oe). rewrite E in HF. inversion HF as [|e' ? es ? _ F Ed]. inversion F as [Ees|]. rewrite <- Ees in Ed. rewrite <- Ed in He. injection He as ->. apply (H2 e); auto.
  - intros r Y Lr NE HY. destruct (HO r Lr NE) as (d & Hd & HL & RM). apply In_nth_error in HY as [k Hk]. destruct (sym_at r d k Y Hd HL Hk) as (e & _ & [[_ ->]|(a & _ & _ & Ht)]); [now left|now right].
  - intros r k Lr NE. destruct (HO r Lr NE) as (d & Hd & HL & RM). now apply (no_two r d k).
  - intros r r' a Lr Lr' NE NE' Na H H'. destruct (HO r Lr NE) as (d & Hd & HL & _), (HO r' Lr' NE') as (d' & Hd' & HL' & _).
    destruct (sym_t r d 0 a Hd HL H Na) as (e & b & He & Tb & Ab & _), (sym_t r' d' 0 a Hd' HL' H' Na) as (e' & b' & He' & Tb' & Ab' & _). assert (b' = b) by (apply at_gname in Ab, Ab'; congruence). subst b'.
    destruct (d_rhs d) as [|e1 l] eqn:Ed; [discriminate|]. destruct (d_rhs d') as [|e1' l'] eqn:Ed'; [discriminate|]. injection He as ->. injection He' as ->. exact (op_head _ _ _ OP _ _ _ _ _ _ _ _ _ Hd Hd' Ed Ed' Tb Tb').
  - intros r r' a Lr Lr' NE NE' H0 H1 H0' H1'. destruct (HO r Lr NE) as (d & Hd & HL & _), (HO r' Lr' NE') as (d' & Hd' & HL' & _).
    assert (Na : a <> Nn) by (intros ->; exact (no_two r d 0 Hd HL H0 H1)).
    destruct (sym_n r d 0 Hd HL H0) as (o & Ho & Oo), (sym_n r' d' 0 Hd' HL' H0') as (o' & Ho' & Oo').
    destruct (sym_t r d 1 a Hd HL H1 Na) as (e & b & He & Tb & Ab & _), (sym_t r' d' 1 a Hd' HL' H1' Na) as (e' & b' & He' & Tb' & Ab' & _). assert (b' = b) by (apply at_gname in Ab, Ab'; congruence). subst b'.
    destruct (two_first _ _ _ Ho He) as (l & Ed), (two_first _ _ _ Ho' He') as (l' & Ed'). exact (op_infix _ _ _ OP _ _ _ _ _ _ _ _ _ _ _ Hd Hd' Ed Ed' Oo Oo' Tb Tb').
  - intros r r' a k Lr Lr' NE NE' H0 H1 H0' H1'. destruct (HO r Lr NE) as (d & Hd & HL & _), (HO r' Lr' NE') as (d' & Hd' & HL' & _).
    assert (Na : a <> Nn) by (intros ->; exact (no_two r d 0 Hd HL H0 H1)).
    destruct (sym_n r d 0 Hd HL H0) as (o & Ho & Oo), (sym_n r' d' (S k) Hd' HL' H0') as (o' & Ho' & Oo').
    destruct (sym_t r d 1 a Hd HL H1 Na) as (e & b & He & Tb & Ab & _), (sym_t r' d' (S (S k)) a Hd' HL' H1' Na) as (e' & b' & He' & Tb' & Ab' & _). assert (b' = b) by (apply at_gname in Ab, Ab'; congruence). subst b'.
    destruct (two_first _ _ _ Ho He) as (l & Ed), (two_at _ _ _ _ Ho' He') as (l1 & l2 & Ed' & E1). pose proof (op_inner _ _ _ OP _ _ _ _ _ _ _ _ _ _ _ _ Hd Hd' Ed Ed' Oo Oo' Tb Tb'). subst l1. discriminate.
Qed.

(** *** Nested over the declarations, nested over the grammar *)
Context {M : Type}.
Notation derives := (Spec.derives g (direct g) (M := M)).
Notation derives_all := (Spec.derives_all g (direct g) (M := M)).
Definition first_is (b : nat) (w : list ident) : Prop := (b = 0 /\ w = []) \/ exists w0, w = gname g b :: w0.

Lemma dec_node r (ts : list (tree M)) : r < nr -> dec (TNode r ts) = LRule r (map dec ts).
Proof. intros L. destruct (made_at r L) as [L' _]. cbn [Claims15.dec]. apply Nat.ltb_lt in L'. now rewrite L'. Qed.
Lemma occ_up u b (tr : tree M) b' : gocc u b tr b' -> forall Y w', derives Y tr -> first_is b' w' -> exists w Y', occurs (dec u) w (dec tr) w' /\ first_is b w /\ derives Y' u.
Proof.
  induction 1 as [|r l c rs b' H IH]; intros Y w' D HF.
  - exists w', Y. splits; auto. constructor.
  - inversion D as [|? ru ? Hr HD]; subst. destruct (derives_all_app g (direct g) _ _ _ HD) as (Y1 & Y2 & EY & D1 & D2). inversion D2 as [|Yc ? Ys ? Dc Dr]; subst.
    destruct (IH Yc (flat_map leaves (map dec rs) ++ w') Dc) as (w & Y' & HO & Hw & D').
    + rewrite (proj2 (dec_leaves ds g opts DE (direct g)) _ _ Dr). destruct (flat_map yield rs) as [|[a m] l0]; cbn; auto. right. eexists. reflexivity.
    + exists w, Y'. splits; auto. rewrite dec_node by (apply nth_error_Some; congruence). rewrite map_app. cbn [map]. now constructor.
Qed.
Lemma lead_up u (tr : tree M) : gleads u tr -> forall Y, derives Y tr -> leads (dec u) (dec tr).
Proof.
  induction 1 as [|r c us H IH]; intros Y D; [constructor|]. inversion D as [|? ru ? Hr HD]; subst. remember (map fst (r_rhs ru)) as Ys eqn:EYs. inversion HD as [|Yc ? Ys' ? Dc Dr]; subst.
  rewrite dec_node by (apply nth_error_Some; congruence). cbn [map]. constructor. eauto.
Qed.

Hypothesis HA : forall k q, assoc_of ds k = Some q -> upper k.
Context (r0 : nat) (O : opgram g r0 Nn).

Lemma other_rule r : r < nr -> r <> r0 -> exists d, nth_error (rules_in ds) r = Some d /\ d_lhs d = n.
Proof.
  intros L NE. destruct (made_at r L) as (_ & d & Hd & RM). exists d. split; auto. pose proof (og_lhs _ _ _ O r L NE) as E. pose proof (rm_lhs _ _ _ _ RM) as HL. rewrite E in HL. apply at_gname in HL, HN. congruence.
Qed.
Lemma ends_up i : ends g r0 Nn i -> exists di, ends_in ds i di n /\ d_lhs di = n.
Proof.
  intros (L & NE & l & E). destruct (other_rule i L NE) as (d & Hd & HL). exists d. split; auto. split; auto.
  assert (HK : nth_error (rh i) (List.length l) = Some Nn) by (rewrite E, nth_error_app2, Nat.sub_diag by lia; reflexivity).
  destruct (sym_n i d _ Hd HL HK) as (e & He & al & ->). apply nth_error_split in He as (es & es' & Ed & Le). destruct (rule_made_at i d Hd) as [_ RM]. pose proof (forall2_len _ _ _ (rm_rhs _ _ _ _ RM)) as LL.
  fold (rh i) in LL. rewrite E, Ed, !app_length in LL. cbn in LL. destruct es' as [|? ?]; [eauto|cbn in LL; lia].
Qed.
Lemma starts_up j a : starts g r0 Nn j a -> starts_with ds j n (gname g a) /\ at_name g a (gname g a) /\ gname g a <> "" /\ a <> 0 /\ is_term g a.
Proof.
  intros (L & NE & H0 & H1). destruct (other_rule j L NE) as (d & Hd & HL). assert (Na : a <> Nn) by (intros ->; exact (no_two j d 0 Hd HL H0 H1)).
  destruct (sym_n j d 0 Hd HL H0) as (o & Ho & al & ->), (sym_t j d 1 a Hd HL H1 Na) as (e & b & He & (U & HC & al' & ->) & Ab & Ht). destruct (two_first _ _ _ Ho He) as (l & Ed).
  pose proof (at_gname _ _ _ Ab) as Eb. rewrite Eb. splits; auto.
  - exists d, al, ([b], false, al'), l. splits; auto. left. exists b, al'. split; auto. split; auto. now rewrite HC.
  - now apply upper_nonempty.
  - intros ->. pose proof (de_dollar _ _ _ DE) as D0. apply at_gname in D0. rewrite D0 in Eb. subst b. discriminate.
Qed.

Theorem nested_up tr : derives (g_start g) tr -> nested ds (dec tr) -> gnest g r0 Nn tr 0.
Proof.
  intros D [HR HL]. assert (F0 : first_is 0 []) by (left; auto). constructor.
  - intros i l c b' j u a m us HO HE HG HS. destruct (occ_up _ _ _ _ HO _ _ D F0) as (w & Y' & HOd & _ & D'). assert (Li : i < nr) by apply HE. rewrite dec_node, map_app in HOd by auto. cbn [map] in HOd.
    inversion D' as [|? ru ? Hr HD]; subst. destruct (derives_all_app g (direct g) _ _ _ HD) as (Y1 & Y2 & EY & D1 & D2). inversion D2 as [|Yc ? Ys ? Dc Dr]; subst.
    pose proof (lead_up _ _ HG _ Dc) as HLd. rewrite dec_node in HLd by apply HS. cbn [map Claims15.dec] in HLd.
    destruct (ends_up i HE) as (di & Ei & Ln). destruct (starts_up j a HS) as (Sj & Aa & Na & _).
    destruct (HR _ _ _ _ _ _ _ _ _ _ HOd Ei Ln HLd Sj) as (i1 & u1 & j1 & v1 & E1 & E2 & HC). destruct (rule_prec_decl ds g opts DE W HA i di (proj1 Ei)) as (ru' & Hr' & _ & E).
    destruct (sym_decl _ _ _ DE _ _ Aa Na) as (E3 & _). exists i1, u1, j1, v1. rewrite (grule_nth g _ _ Hr'). splits; congruence.
  - intros i ts a j HO HE HS. destruct (ends_up i HE) as (di & Ei & Ln). destruct (starts_up j a HS) as (Sj & Aa & Na & N0 & _). destruct (occ_up _ _ _ _ HO _ _ D F0) as (w & Y' & HOd & Fw & D').
    rewrite dec_node in HOd by apply HE. destruct Fw as [[E _]|(w0 & ->)]; [contradiction|].
    destruct (HL _ _ _ _ _ _ _ HOd Ei Sj) as (i1 & u1 & j1 & v1 & E1 & E2 & HC). destruct (rule_prec_decl ds g opts DE W HA i di (proj1 Ei)) as (ru' & Hr' & _ & E).
    destruct (sym_decl _ _ _ DE _ _ Aa Na) as (E3 & _). exists i1, u1, j1, v1. rewrite (grule_nth g _ _ Hr'). splits; congruence.
Qed.
End Sym.
End Made.

Section Build.
Context (ds : list decl) (b : built).
Hypothesis EX : expands ds b.
Hypothesis US : usable ds b.
Notation g := (bt_grammar b). Notation t := (bt_tables b).

(** C41: a token string with a tree in which operators are nested as declared is accepted, with
    the value of that tree. *)
Theorem operators_exact {V X E} (sm : sem V X E) s n ks x x' v T : operators ds s n -> wildcard_of ds = None ->
  (forall a l, assoc_of ds a = Some (l, ANone) -> fallback_of ds a = None) -> types_ok ds -> tokens_wf b ks ->
  meant ds sm eq s (reading b sm ks) x x' v T -> nested ds T -> answers_or_overflows b sm x ks (root_value ds sm s v) x'.
Proof.
  intros OP HW HT TO Hk HM HN. destruct (reading_eq ds b EX US sm ks Hk) as (ER & _ & Hok). destruct (ex_decl ds b EX) as (opts & DE). destruct (de_start _ _ _ DE) as (s' & Hs' & As & Low).
  pose proof (op_start _ _ _ OP) as Hs. assert (s' = s) by congruence. subst s'. pose proof (ex_pipe ds b EX US) as P.
  destruct (proj1 (meant_tree ds g opts DE _ _ _ _ P sm _ _ (linked_direct ds g opts DE (ex_wf ds b EX)) (ex_sane ds b EX TO) (ex_auto ds b EX) (direct_match b)) _ _ _ _ _ _ HM (g_start g) _ As ER Hok) as (tr & m & HD & Hy & He & Hv & HS & ET).
  { intros a m Hin. now apply (tokval_all ds b EX US sm ks Hk a m). }
  assert (Ha : h_accept (user_hooks t sm) m = Some (root_value ds sm s v)).
  { destruct (h_accept (user_hooks t sm) m) as [r|] eqn:Ea.
    - f_equal. rewrite <- Hv. eapply (root_eq ds b EX US sm (direct g)); eauto. exact (direct_match b).
    - exfalso. apply (val_acc g _ _ _ _ P (ex_sane ds b EX TO) sm _ m HS Ea). }
  assert (HR : exists r0 d0, nth_error (rules_in ds) r0 = Some d0 /\ d_lhs d0 = s).
  { inversion HM as [a0 v0 b0 n0 x0 _ Hst|i d w vs v0 x0 x1 x2 ts Hd _ _]; subst; eauto. exfalso. unfold stands in Hst. clear - Hst Low. destruct Hst as [U _]. eapply upper_lower; eauto. }
  destruct HR as (r0 & d0 & Hd0 & HL0). destruct (rule_made_at ds g opts DE r0 d0 Hd0) as [_ RM0].
  assert (HNn : exists Nn, at_name g Nn n).
  { destruct (op_rule _ _ _ OP d0 (nth_error_In _ _ Hd0)) as [(_ & e & E0 & al & ->)|(E0 & _)]; [|exfalso; apply (op_new _ _ _ OP); congruence].
    pose proof (rm_rhs _ _ _ _ RM0) as HF. rewrite E0 in HF. apply f2_cons_l in HF as (Y & m' & _ & He' & _). destruct He' as [_ He']. eauto. }
  destruct HNn as (Nn & HNn). pose proof (made_opgram ds g opts DE s n OP Nn HNn r0 d0 Hd0 HL0 As) as O.
  assert (HO : toks_ok g (yield tr)) by (exact (eq_ind_r (fun l => toks_ok g l) Hok Hy)).
  pose proof (nested_up ds g opts DE _ _ _ _ P s n OP Nn HNn (ex_assoc ds b EX) r0 O tr HD ltac:(rewrite ET; exact HN)) as GN.
  pose proof (nest_accepted g _ _ _ _ P (one_word ds g opts DE) r0 Nn O tr HD HO GN) as K.
  apply (compression_kept ds b EX sm x ks _ x' US HW HT Hk). rewrite <- Hy. eapply (kept_rparse g _ _ _ _ P); eauto.
Qed.
End Build.
