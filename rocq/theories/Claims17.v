(** Grammars of operators: every sentence is accepted, in one way (C41). *)
From Verif Require Import Base Syntax BaseFacts FrontEnd First States Actions Tables Runtime User Spec WfGrammar FirstFacts ClosureFacts AutoFacts LalrFacts ActFacts CompFacts LookFacts PipeFacts RunFacts
  SoundFacts SafeFacts AbsFacts HaltFacts TermFacts CompleteFacts RefFacts FrontFacts BuildFacts DeclSpec DeclFacts GramFacts LangFacts TypeFacts MeanSpec MeanFacts TypeDecl TreeSpec Main Claims2 Claims6 Claims9
  FaultDuel FaultAct FaultBack KeptFacts PrecSpec Claims15 OpFacts Claims16 NestFacts.
Open Scope string_scope. Open Scope nat_scope. Open Scope list_scope.

(** ** Hooks that build the tree *)
Definition tree_hooks : hooks (tree unit) unit unit (tree unit) :=
  mkHooks (fun r vs x => Some (x, inl (TNode r vs))) (fun m => Some m) (fun _ _ _ x => (x, inr tt)) (fun x => (x, tt)) (fun _ _ x => (x, tt)) (TTok 0 tt).
(** The same tree, every token with itself as its value *)
Fixpoint lift (tr : tree unit) : tree (tree unit) := match tr with TTok a m => TTok a (TTok a m) | TNode r ts => TNode r (map lift ts) end.

Lemma lift_all g N mt :
  (forall Y tr, derives g mt Y tr -> derives g mt Y (lift tr) /\ yield (lift tr) = map (fun q => (fst q, TTok (fst q) (snd q))) (yield tr) /\
     eval tree_hooks (lift tr) tt = EvOk tt tr /\ Claims15.dec g N (lift tr) = Claims15.dec g N tr) /\
  (forall Ys trs, derives_all g mt Ys trs -> derives_all g mt Ys (map lift trs) /\ flat_map yield (map lift trs) = map (fun q => (fst q, TTok (fst q) (snd q))) (flat_map yield trs) /\
     eval_list tree_hooks (map lift trs) tt = EvOk tt trs /\ map (Claims15.dec g N) (map lift trs) = map (Claims15.dec g N) trs).
Proof.
  apply derives_both.
  - intros a m Y H. splits; try reflexivity. now constructor.
  - intros r ru ts Hr _ (H1 & H2 & H3 & H4). splits.
    + cbn [lift]. now constructor.
    + cbn [lift yield]. exact H2.
    + cbn [lift]. rewrite eval_node, H3. reflexivity.
    + cbn [lift Claims15.dec]. rewrite H4. destruct (r <? N); auto. destruct ts as [|c ts]; auto. cbn in H4 |- *. injection H4 as -> _. reflexivity.
  - splits; try reflexivity. constructor.
  - intros Y tr Ys trs _ (H1 & H2 & H3 & H4) _ (I1 & I2 & I3 & I4). splits.
    + cbn [map]. now constructor.
    + cbn [map flat_map]. now rewrite H2, I2, map_app.
    + cbn [map eval_list]. rewrite H3, I3. reflexivity.
    + cbn [map]. now rewrite H4, I4.
Qed.

Section Build.
Context (ds : list decl) (b : built).
Hypothesis EX : expands ds b.
Notation g := (bt_grammar b). Notation t := (bt_tables b).
Notation N := (List.length (rules_in ds)).

Lemma decode_dec tr : decode g N tr = Claims15.dec g N tr.
Proof.
  revert tr. fix F 1. intros [a m|r ts]; [reflexivity|]. cbn [decode Claims15.dec]. destruct (r <? N); [|destruct ts; [reflexivity|f_equal; apply F]]. f_equal.
  induction ts as [|c ts IH]; [reflexivity|]. cbn [map]. f_equal; [apply F|exact IH].
Qed.

Lemma op_setup opts s n r0 d0 : declared ds g opts -> operators ds s n -> nth_error (rules_in ds) r0 = Some d0 -> d_lhs d0 = s -> exists Nn, at_name g Nn n /\ opgram g r0 Nn.
Proof.
  intros DE OP Hd0 HL0. destruct (de_start _ _ _ DE) as (s' & Hs' & As & Low). pose proof (op_start _ _ _ OP) as Hs. assert (s' = s) by congruence. subst s'.
  destruct (rule_made_at ds g opts DE r0 d0 Hd0) as [_ RM0].
  destruct (op_rule _ _ _ OP d0 (nth_error_In _ _ Hd0)) as [(_ & e & E0 & al & ->)|(E0 & _)]; [|exfalso; apply (op_new _ _ _ OP); congruence].
  pose proof (rm_rhs _ _ _ _ RM0) as HF. rewrite E0 in HF. apply f2_cons_l in HF as (Y & m' & _ & He' & _). destruct He' as [_ He']. exists Y. split; auto.
  exact (made_opgram ds g opts DE s n OP Y He' r0 d0 Hd0 HL0 As).
Qed.
Lemma tree_top s n w T : operators ds s n -> tree_of ds s w T -> exists r0 d0, nth_error (rules_in ds) r0 = Some d0 /\ d_lhs d0 = s.
Proof.
  intros OP H. pose proof (op_slow _ _ _ OP) as Low. inversion H as [a n0 [U _]|i d w0 ts Hd _]; subst; eauto. exfalso. eapply upper_lower; eauto.
Qed.

Hypothesis US : usable ds b.

(** A token string has one tree in which operators are nested as declared. *)
Theorem nested_unique s n w T1 T2 : operators ds s n -> wildcard_of ds = None -> (forall a l, assoc_of ds a = Some (l, ANone) -> fallback_of ds a = None) ->
  Forall (fun a => class_of ds a = None) w -> tree_of ds s w T1 -> nested ds T1 -> tree_of ds s w T2 -> nested ds T2 -> T1 = T2.
Proof.
  intros OP HW HT Hw D1 N1 D2 N2. destruct (ex_decl ds b EX) as (opts & DE). pose proof (ex_wf ds b EX) as W. destruct (de_start _ _ _ DE) as (s' & Hs' & As & _). pose proof (op_start _ _ _ OP) as Hs. assert (s' = s) by congruence. subst s'.
  destruct (tree_top s n w T1 OP D1) as (r0 & d0 & Hd0 & HL0). destruct (op_setup opts s n r0 d0 DE OP Hd0 HL0) as (Nn & HNn & O).
  pose proof (ex_pipe ds b EX US) as P. pose proof (pipe_unlimited _ _ _ _ _ P) as PU. pose proof (decls_wild _ _ _ DE HW) as HW'.
  assert (TK : ties_kept g).
  { intros a l Ha. destruct (sy_fb (gsym g a)) as [f|] eqn:Ef; auto. exfalso. destruct (nth_error (g_syms g) a) as [sy|] eqn:Es; [|unfold gsym in Ef; rewrite nth_overflow in Ef by (now apply nth_error_None); discriminate].
    unfold gsym in Ef, Ha. rewrite (nth_error_nth _ _ _ Es) in Ef, Ha. destruct (string_dec (sy_name sy) "") as [En|En]; [destruct (de_anon _ _ _ DE _ _ Es En) as (_ & F & _); congruence|].
    destruct (de_sym _ _ _ DE _ _ Es En) as (E1 & E2 & _). rewrite Ha in E1. rewrite Ef in E2. cbn in E2. rewrite (HT _ _ (eq_sym E1)) in E2. discriminate. }
  destruct (proj1 (encode ds _ opts DE W) _ _ _ D1 Hw _ As) as (t1 & G1 & Y1 & O1 & Q1). destruct (proj1 (encode ds _ opts DE W) _ _ _ D2 Hw _ As) as (t2 & G2 & Y2 & O2 & Q2). rewrite decode_dec in Q1, Q2.
  assert (YE : yield t1 = yield t2) by (eapply word_inj; eauto; congruence).
  assert (RP : forall tr T, derives g (direct g) (g_start g) tr -> toks_ok g (yield tr) -> Claims15.dec g N tr = T -> nested ds T ->
    exists m pp, run m (unlimited t) tree_hooks tt (yield (lift tr)) = ROk (tr, tt) pp /\ ~ dropped pp).
  { intros tr T D Ot E NT. destruct (proj1 (lift_all g N (direct g)) _ _ D) as (D' & Yl & Ev & Ed).
    assert (Ol : toks_ok g (yield (lift tr))). { rewrite Yl. intros a m Hin. apply in_map_iff in Hin as ([a' m'] & Eq & Hin). injection Eq as <- _. exact (Ot _ _ Hin). }
    pose proof (nested_up ds g opts DE _ _ _ _ P s n OP Nn HNn (ex_assoc ds b EX) r0 O (lift tr) D' ltac:(rewrite Ed, E; exact NT)) as GN.
    pose proof (nest_accepted g _ _ _ _ P (one_word ds g opts DE) r0 Nn O (lift tr) D' Ol GN) as K.
    apply (tables_agree g _ _ _ (unlimited t) PU tree_hooks HW' TK tt _ tr tt); auto. eapply (kept_rparse g _ _ _ _ P); eauto. }
  destruct (RP t1 T1 G1 O1 Q1 N1) as (m1 & p1 & R1 & _). destruct (RP t2 T2 G2 O2 Q2 N2) as (m2 & p2 & R2 & _).
  assert (EY : yield (lift t2) = yield (lift t1)) by (rewrite (proj1 (proj2 (proj1 (lift_all g N (direct g)) _ _ G1))), (proj1 (proj2 (proj1 (lift_all g N (direct g)) _ _ G2))); now rewrite YE).
  rewrite EY in R2. pose proof (run_mono (unlimited t) tree_hooks m1 (Nat.max m1 m2) tt (yield (lift t1)) ltac:(lia)) as H1. pose proof (run_mono (unlimited t) tree_hooks m2 (Nat.max m1 m2) tt (yield (lift t1)) ltac:(lia)) as H2.
  rewrite R1 in H1. rewrite R2 in H2. specialize (H1 ltac:(discriminate)). specialize (H2 ltac:(discriminate)). assert (t1 = t2) by congruence. congruence.
Qed.

(** ** A sentence has a nested tree *)
Lemma comparable s n : operators ds s n -> (exists i d, nth_error (rules_in ds) i = Some d /\ d_lhs d = s) -> (forall j a l, starts_with ds j n a -> assoc_of ds a <> Some (l, ANone)) ->
  forall i di j a, ends_in ds i di n -> d_lhs di = n -> starts_with ds j n a -> tok_over ds a di \/ rule_over ds di a.
Proof.
  intros OP (r0 & d0 & Hd0 & HL0) NA i di j a (Hdi & es & al & Ei) Hn HSW. pose proof HSW as (dj & al' & e & es' & Hdj & Hnj & Ej & HSh).
  destruct (ex_decl ds b EX) as (opts & DE). pose proof (ex_wf ds b EX) as W. destruct (op_setup opts s n r0 d0 DE OP Hd0 HL0) as (Nn & HNn & O). pose proof (ex_pipe ds b EX US) as P.
  pose proof (op_new _ _ _ OP) as Nsn.
  assert (Ni : i <> r0) by (intros ->; congruence). assert (Nj : j <> r0) by (intros ->; congruence).
  destruct (rule_made_at ds g opts DE i di Hdi) as [Li RMi]. destruct (rule_made_at ds g opts DE j dj Hdj) as [Lj RMj].
  assert (E1 : ends g r0 Nn i).
  { split; [exact Li|]. split; [exact Ni|]. pose proof (rm_rhs _ _ _ _ RMi) as HF. rewrite Ei in HF. apply Forall2_app_inv_l in HF as (l1 & l2 & _ & F2 & E). exists l1. unfold rh. rewrite E. f_equal.
    apply f2_cons_l in F2 as (Y & m' & -> & HY & F2). apply f2_nil_l in F2 as ->. f_equal. eapply (operand_sym ds g opts DE s n OP Nn HNn); eauto. exists al. reflexivity. }
  pose proof (rm_rhs _ _ _ _ RMj) as HF. rewrite Ej in HF. apply f2_cons_l in HF as (Y0 & m0 & E0 & HY0 & HF). apply f2_cons_l in HF as (Y1 & m1 & -> & HY1 & _).
  assert (Y0 = Nn) by (eapply (operand_sym ds g opts DE s n OP Nn HNn); eauto; exists al'; reflexivity).
  assert (HT : exists a', is_token ds a' e).
  { destruct (op_rule _ _ _ OP dj (nth_error_In _ _ Hdj)) as [(Eq & _)|(_ & _ & _ & HA & Hadj)]; [congruence|]. destruct (HA e) as [Ho|Ht]; auto; [rewrite Ej; right; now left|].
    exfalso. apply (Hadj [] _ _ _ Ej); auto. exists al'. reflexivity. }
  destruct HT as (a' & Ht). destruct (token_sym ds g opts DE a' e Y1 Ht HY1) as (HA & HTm). assert (a' = a).
  { destruct Ht as (Up & Hc & al2 & Ee). rewrite Ee in HSh. destruct HSh as [(n' & al3 & Eq & Hst)|(ns & o & al3 & Eq & Hl & _)].
    - injection Eq as <- _. destruct Hst as [_ Hst]. rewrite Hc in Hst. congruence.
    - injection Eq as <- _ _. cbn in Hl. lia. }
  subst a'. assert (S1 : starts g r0 Nn j Y1) by (unfold starts, rh; rewrite E0; subst Y0; splits; auto).
  assert (Na : a <> "") by (apply upper_nonempty, Ht). destruct (sym_decl _ _ _ DE _ _ HA Na) as (E3 & _). destruct (rule_prec_decl ds g opts DE W (ex_assoc ds b EX) i di Hdi) as (ru' & Hr' & _ & E4).
  pose proof (grule_nth g _ _ Hr') as Eg.
  destruct (compared g _ _ _ _ P (one_word ds g opts DE) r0 Nn O i j Y1 E1 S1) as [(a1 & u1 & a2 & u2 & H1 & H2 & H3)|[(a1 & u1 & a2 & u2 & H1 & H2 & H3)|(l & c & H1 & H2)]].
  - left. exists a1, u1, a2, u2. rewrite Eg in H2. splits; congruence || auto.
  - right. exists a1, u1, a2, u2. rewrite Eg in H2. splits; congruence || auto.
  - exfalso. apply (NA j a l HSW). congruence.
Qed.

Section Total.
Context {V X E : Type} (sm : sem V X E).
Hypothesis TOT : forall c args x, exists x' v, u_block sm c args x = (x', inl v).
Lemma result_total i d vs x : nth_error (rules_in ds) i = Some d -> List.length vs = List.length (d_rhs d) -> exists x' v, result ds sm d vs x = Some (x', inl v).
Proof.
  intros Hd L. destruct (ex_decl ds b EX) as (opts & DE). destruct (decl_at ds g opts DE i d Hd) as (ru & Hr & RM). rewrite <- (made_code ds g opts DE sm d ru vs x RM).
  pose proof (rm_code _ _ _ _ RM) as HC. destruct (d_code d) as [c|].
  - destruct HC as [-> _]. cbn. destruct (TOT c (map snd (filter fst (combine (map snd (r_rhs ru)) vs))) x) as (x' & v & E'). rewrite E'. eauto.
  - destruct HC as [(-> & _)|(EC & _)]; [cbn; eauto|]. pose proof (ex_auto ds b EX ru (nth_error_In _ _ Hr) (or_introl EC)) as L1. rewrite EC. cbn.
    assert (Lf : List.length vs = List.length (r_rhs ru)). { pose proof (forall2_len _ _ _ (rm_rhs _ _ _ _ RM)) as F. rewrite map_length in F. congruence. }
    clear - L1 Lf. revert vs Lf. assert (H0 : forall l (vs : list V), List.length vs = List.length l -> List.length (filter snd l) = List.length (map snd (filter fst (combine (map (@snd nat bool) l) vs)))).
    { induction l as [|[y f] l IH]; intros [|v vs] L; try discriminate; auto. cbn. destruct f; cbn; rewrite IH with (vs := vs); auto. }
    intros vs Lf. rewrite (H0 _ _ Lf) in L1. destruct (map snd (filter fst (combine (map snd (r_rhs ru)) vs))) as [|v [|? ?]]; try discriminate. eauto.
Qed.
Lemma tree_meant :
  (forall n w T, tree_of ds n w T -> forall wv x, map fst wv = w -> exists x' v, meant ds sm eq n wv x x' v T) /\
  (forall e w T, elem_tree ds e w T -> forall wv x, map fst wv = w -> exists x' v, meant_elem ds sm eq e wv x x' v T) /\
  (forall es w Ts, trees_of ds es w Ts -> forall wv x, map fst wv = w -> exists x' vs, meant_all ds sm eq es wv x x' vs Ts /\ List.length vs = List.length es).
Proof.
  assert (H1 : forall a (wv : list (ident * V)), map fst wv = [a] -> exists v, wv = [(a, v)]).
  { intros a [|[a' v] [|? ?]] H; try discriminate. injection H as ->. eauto. }
  apply tree_of_both.
  - intros a n Hs wv x Hw. destruct (H1 _ _ Hw) as (v & ->). exists x, v. econstructor; eauto.
  - intros i d w ts Hd _ IH wv x Hw. destruct (IH wv x Hw) as (x1 & vs & Hm & L). destruct (result_total i d vs x1 Hd L) as (x2 & v & Hr). exists x2, v. econstructor; eauto.
  - intros n al w T _ IH wv x Hw. destruct (IH wv x Hw) as (x' & v & H). exists x', v. now constructor.
  - intros n al wv x Hw. destruct wv; [|discriminate]. exists x, (v_none sm). constructor.
  - intros n al w T _ IH wv x Hw. destruct (IH wv x Hw) as (x' & v & H). exists x', (v_some sm v). now constructor.
  - intros ns o al a Hl Ha wv x Hw. destruct (H1 _ _ Hw) as (v & ->). exists x, v. econstructor; eauto.
  - intros wv x Hw. destruct wv; [|discriminate]. exists x, []. split; auto. constructor.
  - intros e es w1 w2 T Ts _ IH1 _ IH2 wv x Hw. apply map_eq_app in Hw as (v1 & v2 & -> & W1 & W2). destruct (IH1 v1 x W1) as (x1 & v & H). destruct (IH2 v2 x1 W2) as (x2 & vs & H2 & L).
    exists x2, (v :: vs). split; [econstructor; eauto|cbn; auto].
Qed.

(** C41: if no infix or postfix operator is on a %nonassoc line, every sentence is accepted,
    with the value of its one tree in which operators are nested as declared. *)
Theorem operators_complete s n ks x : operators ds s n -> wildcard_of ds = None -> (forall a l, assoc_of ds a = Some (l, ANone) -> fallback_of ds a = None) ->
  (forall j a l, starts_with ds j n a -> assoc_of ds a <> Some (l, ANone)) -> types_ok ds -> tokens_wf b ks -> says ds eq s (map fst (reading b sm ks)) ->
  exists x' v T, meant ds sm eq s (reading b sm ks) x x' v T /\ nested ds T /\ answers_or_overflows b sm x ks (root_value ds sm s v) x'.
Proof.
  intros OP HW HTi NA TO Hk HS. apply tree_iff in HS as (T0 & H0). destruct (renested ds s n OP) with (w := map fst (reading b sm ks)) (T := T0) as (T & HT & HN); auto.
  - eapply comparable; eauto. eapply tree_top; eauto.
  - destruct (proj1 tree_meant _ _ _ HT (reading b sm ks) x eq_refl) as (x' & v & Hm). exists x', v, T. splits; auto.
    eapply operators_exact; eauto.
Qed.
End Total.

Lemma meant_tk {V X E} (sm : sem V X E) (tk tk' : ident -> ident -> Prop) : (forall a c, tk a c -> tk' a c) -> forall n w x x' v T, meant ds sm tk n w x x' v T -> meant ds sm tk' n w x x' v T.
Proof.
  intros HT. apply (meant_mind ds V X E sm tk (meant ds sm tk') (meant_elem ds sm tk') (meant_all ds sm tk')); intros; try (econstructor; eauto; fail).
Qed.
(** C41: what is accepted, and with which value. *)
Theorem operators_iff {V X E} (sm : sem V X E) s n ks x r x' : operators ds s n -> wildcard_of ds = None -> no_fallback ds -> types_ok ds -> tokens_wf b ks ->
  let read := exists v T, meant ds sm eq s (reading b sm ks) x x' v T /\ nested ds T /\ r = root_value ds sm s v in
  (answers b sm x ks r x' -> read) /\ (read -> answers_or_overflows b sm x ks r x').
Proof.
  intros OP HW NF TO Hk read. split.
  - intros (m & pp & HR & Hd). destruct (operators_bind ds b EX US sm m x ks r x' pp HW (fun a l _ => NF a) Hk HR Hd) as (s' & v & T & Hs & HM & Hr & HN & _).
    assert (s' = s) by (rewrite (op_start _ _ _ OP) in Hs; congruence). subst s'. exists v, T. splits; auto. revert HM. apply meant_tk. intros a c [Hf|Hf]; [eapply falls_none; eauto|congruence].
  - intros (v & T & HM & HN & ->). eapply operators_exact; eauto.
Qed.
End Build.
