(** The stack an input needs (C50). *)
From Verif Require Import Base Syntax BaseFacts FrontEnd First States Actions Tables Runtime User Spec WfGrammar FirstFacts ClosureFacts AutoFacts LalrFacts ActFacts CompFacts LookFacts PipeFacts RunFacts
  SoundFacts SafeFacts AbsFacts CompleteFacts CleanFacts FrontFacts BuildFacts DeclSpec DeclFacts DeclMore GramFacts LangFacts TypeFacts MeanSpec MeanFacts TypeDecl TreeSpec Main Claims2 Claims3 PrecSpec Claims6 Claims9 Claims15 OpFacts Claims16 NestFacts Claims17 TermFacts HaltFacts RefFacts FaultDuel FaultAct FaultBack KeptFacts TimeFacts DepthFacts TraceFacts.
Open Scope string_scope. Open Scope nat_scope. Open Scope list_scope.

(** Entries that reading a tree adds to the stack, at the worst moment: the entries of the
    elements before an element stay while that element is read, and all of them are replaced by
    one when the rule is complete. *)
Fixpoint depth (T : dtree) : nat :=
  match T with
  | LTok _ | LNone => 1
  | LSome T' => depth T'
  | LRule _ Ts => max 1 ((fix go Ts := match Ts with [] => 0 | T' :: Ts' => max (depth T') (S (go Ts')) end) Ts)
  end.
Fixpoint depths (Ts : list dtree) : nat :=
  match Ts with [] => 0 | T :: Ts' => max (depth T) (S (depths Ts')) end.
Lemma depth_rule i Ts : depth (LRule i Ts) = max 1 (depths Ts).
Proof. reflexivity. Qed.
Lemma depth_pos : forall T, 1 <= depth T.
Proof. fix F 1. intros [a|i Ts| |T]; [apply le_n|rewrite depth_rule; lia|apply le_n|exact (F T)]. Qed.
(** The stack starts with one entry, and the root is not put on it. *)
Definition stack_for (T : dtree) : nat := match T with LRule _ Ts => S (depths Ts) | _ => 1 end.

Section Tree.
Context (ds : list decl) (g : grammar) (opts : list (nat * nat)) (DE : declared ds g opts).
Context (p p3 p4 : pst) (t : tables) (P : Pipe g p p3 p4 t).
Notation N := (List.length (rules_in ds)).
Notation dec := (dec g N).
Context {M : Type} (mt : nat -> nat -> Prop).

Lemma need_pos (tr : tree M) : 1 <= need tr.
Proof. destruct tr; [auto|]. rewrite need_node. lia. Qed.
Lemma need_depth :
  (forall Y (tr : tree M), derives g mt Y tr -> need tr = depth (dec tr)) /\
  (forall Ys (ts : list (tree M)), derives_all g mt Ys ts -> needs ts = depths (map dec ts)).
Proof.
  apply derives_both.
  - reflexivity.
  - intros r ru ts Hr HD IH. rewrite need_node. cbn [Claims15.dec]. destruct (Nat.ltb_spec r N) as [L|L]; [rewrite depth_rule; congruence|].
    destruct (opt_single ds g opts DE mt r ru ts Hr L HD) as [-> |(u & -> & _)]; [reflexivity|]. cbn [needs map depths depth] in *. pose proof (need_pos u). pose proof (depth_pos (dec u)). lia.
  - reflexivity.
  - intros Y tr Ys ts _ IH _ IHs. cbn [needs map depths]. now rewrite IH, IHs.
Qed.

Notation len := (fun r => List.length (rr_rhs (nth r (t_rules t) dummy_rt))).
Lemma len_rule r : r < List.length (g_rules g) -> len r = List.length (r_rhs (grule g r)).
Proof. intros L. destruct (rule_entry g p p3 p4 t P r L) as (rr & Hr & _ & E & _). cbv beta. rewrite (nth_error_nth _ _ _ Hr). rewrite <- E. now rewrite map_length. Qed.

Lemma climb_tree :
  (forall Y (tr : tree M), derives g mt Y tr -> forall k le, opens le -> climb len k (events tr ++ le) = max (k + need tr) (climb len (S k) le)) /\
  (forall Ys (ts : list (tree M)), derives_all g mt Ys ts -> forall k le, opens le ->
     climb len k (flat_map events ts ++ le) = max (match ts with [] => 0 | _ => k + needs ts end) (climb len (k + List.length ts) le)).
Proof.
  apply derives_both.
  - intros a m Y _ k le _. cbn [events app climb need]. now rewrite Nat.add_1_r.
  - intros r ru ts Hr HD IH k le Ho. cbn [events]. rewrite <- app_assoc. rewrite IH by exact I. cbn [app]. rewrite need_node.
    assert (Hl : len r = List.length ts).
    { rewrite len_rule by (apply nth_error_Some; congruence). rewrite (grule_nth g _ _ Hr). apply derives_all_forall2 in HD. apply SoundFacts.Forall2_length in HD. now rewrite map_length in HD. }
    assert (E0 : climb len (k + List.length ts) (EvReduce r :: le) = max (S k) (climb len (S k) le)).
    { cbn [climb]. rewrite Hl. replace (k + List.length ts - List.length ts) with k by lia. destruct le as [|[] le]; try (now destruct Ho); reflexivity. }
    rewrite E0. destruct ts; cbn [needs]; lia.
  - intros k le _. cbn. now rewrite Nat.add_0_r.
  - intros Y tr Ys ts _ IH _ IHs k le Ho. cbn [flat_map]. pose proof (need_pos tr) as Hp. rewrite <- app_assoc. rewrite IH, IHs; auto; [cbn [List.length needs]; rewrite Nat.add_succ_r; cbn [Nat.add]; destruct ts; cbn [needs List.length]; lia|].
    pose proof (events_all_calm ts) as HC. destruct (flat_map events ts) as [|e l]; auto. inversion HC as [|? ? H1 _]; subst. destruct e; cbn in *; auto.
Qed.
End Tree.

Section Build.
Context (ds : list decl) (b : built).
Hypothesis EX : expands ds b.
Notation g := (bt_grammar b). Notation t := (bt_tables b).
Context {V X E : Type} (sm : sem V X E).
Notation h := (user_hooks t sm).

(** The number of entries of the stack at its tallest, from what the parser did *)
Definition tallest (pp : parser (minor V) X V) : nat :=
  climb (fun r => List.length (rr_rhs (nth r (t_rules t) dummy_rt))) 1 (rev (ps_log pp)).

Lemma over_stopped n x ks : overflowed t h (api_run n t sm x ks) -> stopped_full ds sm (api_run n t sm x ks).
Proof.
  intros Ho. destruct (limit_only ds b EX sm n x ks) as [[_ HN]|]; auto. exfalso. apply HN. destruct Ho as (e & p & a & m & l & y & -> & Hl & _). cbn. exists a. rewrite Hl. now left.
Qed.

(** C50: the limit is met exactly when the parser without a limit would need more entries. *)
Theorem limit_met n x ks : match unlimited_run b sm n x ks with
  | ROk _ pp | RErr _ pp =>
      (limit_of ds = 0 \/ tallest pp <= limit_of ds -> api_run n t sm x ks = unlimited_run b sm n x ks) /\
      (0 < limit_of ds < tallest pp -> stopped_full ds sm (api_run n t sm x ks))
  | _ => True
  end.
Proof.
  pose proof (run_bites t h n x (map (token_value t sm) ks)) as HB. change (run n (unlimited t) h x (map (token_value t sm) ks)) with (unlimited_run b sm n x ks) in HB.
  change (run n t h x (map (token_value t sm) ks)) with (api_run n t sm x ks) in HB. unfold bites, roomy in HB. rewrite (limit_eq ds b EX) in HB.
  destruct (unlimited_run b sm n x ks) as [r pp|e pp| |]; auto; destruct HB as [B1 B2]; (split; [exact B1|]); intros H; apply over_stopped, B2; unfold tallest in H; lia.
Qed.

Hypothesis US : usable ds b.
Notation N := (List.length (rules_in ds)).
(** What the run that builds a tree needs *)
Lemma tree_needs (tr : tree (minor V)) (pp : parser (minor V) X V) mt Y i Ts : derives g mt Y tr -> Claims15.dec g N tr = LRule i Ts -> ps_log pp = EvAccept :: rev (events tr) ->
  tallest pp = match Ts with [] => 0 | _ => stack_for (LRule i Ts) end.
Proof.
  intros HD HT HL. symmetry in HT. apply dec_rule in HT as (us & -> & ->). destruct (ex_decl ds b EX) as (opts & DE). pose proof (ex_pipe ds b EX US) as P. inversion HD as [|r ru ts Hr Hts]; subst.
  unfold tallest. rewrite HL. cbn [rev events]. rewrite rev_involutive, <- app_assoc.
  rewrite (proj2 (climb_tree g _ _ _ t P mt) _ _ Hts) by exact I. cbn [app climb]. rewrite (proj2 (need_depth ds g opts DE mt) _ _ Hts). destruct us; cbn [map stack_for]; lia.
Qed.
Lemma tree_settles (tr : tree (minor V)) n x ks r (pp : parser (minor V) X V) mt Y i Ts : derives g mt Y tr -> Claims15.dec g N tr = LRule i Ts -> ps_log pp = EvAccept :: rev (events tr) ->
  unlimited_run b sm n x ks = ROk r pp ->
  (limit_of ds = 0 \/ stack_for (LRule i Ts) <= limit_of ds -> api_run n t sm x ks = ROk r pp) /\
  (0 < limit_of ds < stack_for (LRule i Ts) -> stopped_full ds sm (api_run n t sm x ks)).
Proof.
  intros HD HT HL HR. pose proof (limit_met n x ks) as HM. pose proof (tree_needs tr pp mt Y i Ts HD HT HL) as HS. rewrite HR in HM. destruct HM as [H1 H2]. rewrite HS in *. cbn [stack_for] in *. split; intros H; [apply H1|apply H2]; destruct Ts; cbn [depths] in *; lia.
Qed.

(** C50: for grammars without precedences and wildcard *)
Theorem stack_needed s ks x x' v T : plain ds -> types_ok ds -> tokens_wf b ks -> start_of ds = Some s -> meant ds sm eq s (reading b sm ks) x x' v T ->
  exists n, forall n', n <= n' ->
    (limit_of ds = 0 \/ stack_for T <= limit_of ds -> exists pp, api_run n' t sm x ks = ROk (root_value ds sm s v, x') pp /\ Forall peaceful (ps_log pp)) /\
    (0 < limit_of ds < stack_for T -> stopped_full ds sm (api_run n' t sm x ks)).
Proof.
  intros [PL1 PL2] TO Hk Hs HM. destruct (reading_eq ds b EX US sm ks Hk) as (ER & _ & Hok). destruct (ex_decl ds b EX) as (opts & DE). destruct (de_start _ _ _ DE) as (s' & Hs' & As & Low).
  assert (s' = s) by congruence. subst s'. pose proof (ex_pipe ds b EX US) as P.
  destruct (proj1 (meant_tree ds g opts DE _ _ _ _ P sm _ _ (linked_direct ds g opts DE (ex_wf ds b EX)) (ex_sane ds b EX TO) (ex_auto ds b EX) (direct_match b)) _ _ _ _ _ _ HM (g_start g) _ As ER Hok) as (tr & m & HD & Hy & He & Hv & HS & ET).
  { intros a m Hin. now apply (tokval_all ds b EX US sm ks Hk a m). }
  assert (Ha : h_accept h m = Some (root_value ds sm s v)).
  { destruct (h_accept h m) as [r|] eqn:Ea.
    - f_equal. rewrite <- Hv. eapply (root_eq ds b EX US sm (direct g)); eauto. exact (direct_match b).
    - exfalso. apply (val_acc g _ _ _ _ P (ex_sane ds b EX TO) sm _ m HS Ea). }
  assert (HR : exists i Ts, T = LRule i Ts).
  { inversion HM as [a0 v0 b0 n0 x0 _ Hst|i d w vs v0 x0 x1 x2 ts Hd _ _]; subst; eauto. exfalso. unfold stands in Hst. clear - Hst Low. destruct Hst as [U _]. eapply upper_lower; eauto. }
  destruct HR as (i & Ts & ->). pose proof (pipe_unlimited _ _ _ _ _ P) as PU.
  pose proof (run_complete _ _ _ _ _ PU h (clean_lookup _ _ _ _ _ PU (decls_clean _ _ _ DE PL1) (decls_wild _ _ _ DE PL2)) tr x HD) as HC.
  rewrite He, Ha in HC. destruct HC as (n & pp & HR & HL); [destruct tr; cbn; auto; now left|].
  exists n. intros n' Hn. assert (Hy0 : yield (M := minor V) tr = map (token_value t sm) ks) by exact Hy. rewrite Hy0 in HR. pose proof (run_mono (unlimited t) h n n' x (map (token_value t sm) ks) Hn) as HN. rewrite HR in HN. specialize (HN ltac:(discriminate)).
  destruct (tree_settles tr n' x ks _ pp _ _ i Ts HD ET HL HN) as [H1 H2]. split; auto. intros H. exists pp. split; auto. rewrite HL. constructor; [exact I|].
  apply Forall_rev. eapply Forall_impl; [|apply events_calm]. exact peaceful_calm.
Qed.

Lemma root_rule tk s w x x' v T : lower s -> meant ds sm tk s w x x' v T -> exists i Ts, T = LRule i Ts.
Proof. intros Low HM. inversion HM as [a0 v0 b0 n0 x0 _ Hst|i d w0 vs v0 x0 x1 x2 ts Hd _ _]; subst; eauto. exfalso. unfold stands in Hst. clear - Hst Low. destruct Hst as [U _]. eapply upper_lower; eauto. Qed.

(** C50: for every grammar, an input that the parser without a limit accepts *)
Theorem stack_accepted n x ks r x' pp : tokens_wf b ks -> unlimited_run b sm n x ks = ROk (r, x') pp -> ~ dropped pp ->
  exists s v T, start_of ds = Some s /\ meant ds sm (taken ds) s (reading b sm ks) x x' v T /\ r = root_value ds sm s v /\
    (limit_of ds = 0 \/ stack_for T <= limit_of ds -> api_run n t sm x ks = ROk (r, x') pp) /\
    (0 < limit_of ds < stack_for T -> stopped_full ds sm (api_run n t sm x ks)).
Proof.
  intros Hk H Hd. destruct (reading_eq ds b EX US sm ks Hk) as (ER & _ & Hok). destruct (ex_decl ds b EX) as (opts & DE). destruct (de_start _ _ _ DE) as (s & Hs & As & Low). pose proof (ex_pipe ds b EX US) as P.
  pose proof (pipe_unlimited _ _ _ _ _ P) as PU. destruct (run_traced g _ _ _ _ PU h n x _ r x' pp Hok H Hd) as (tr & m & [D Hy] & He & Ha & HL).
  assert (HO : toks_ok g (yield tr)) by (exact (eq_ind_r (fun l => toks_ok g l) Hok Hy)).
  assert (HM : meant ds sm (taken ds) s (reading b sm ks) x x' (snd m) (Claims15.dec g N tr)).
  { rewrite <- ER, <- Hy. refine (proj1 (proj1 (Claims15.tree_meant ds g opts DE _ _ _ _ P sm _ _ (linked_taken ds g opts DE (ex_wf ds b EX))) _ _ D HO _ _ _ He) s As (or_intror Low)). }
  destruct (root_rule _ _ _ _ _ _ _ Low HM) as (i & Ts & ET). exists s, (snd m), (Claims15.dec g N tr). splits; auto.
  - eapply root_eq; eauto.
  - rewrite ET. exact (proj1 (tree_settles tr n x ks _ pp _ _ i Ts D ET HL H)).
  - rewrite ET. exact (proj2 (tree_settles tr n x ks _ pp _ _ i Ts D ET HL H)).
Qed.

(** *** Operators *)
Lemma tree_events :
  (forall (tr : tree (tree unit)), (forall a m, In (a, m) (yield tr) -> exists u, m = TTok a u) -> exists v, eval tree_hooks tr tt = EvOk tt v /\ events v = events tr).
Proof.
  fix F 1. intros [a m|r ts] Hy; cbn [yield events] in *.
  - exists m. split; auto. destruct (Hy a m (or_introl eq_refl)) as (u & ->). reflexivity.
  - rewrite eval_node. assert (HL : exists vs, eval_list tree_hooks ts tt = EvOk tt vs /\ flat_map events vs = flat_map events ts).
    { induction ts as [|c ts IH]; cbn [eval_list flat_map] in *; [exists []; auto|]. destruct (F c) as (v & Ev & Hv); [intros; apply Hy, in_app_iff; auto|]. destruct IH as (vs & Evs & Hvs); [intros; apply Hy, in_app_iff; auto|].
      exists (v :: vs). rewrite Ev, Evs. split; auto. cbn. now rewrite Hv, Hvs. }
    destruct HL as (vs & -> & Hvs). exists (TNode r vs). split; [reflexivity|]. cbn. now rewrite Hvs.
Qed.

Theorem stack_operators s o ks x x' v T : operators ds s o -> wildcard_of ds = None ->
  (forall a l, assoc_of ds a = Some (l, ANone) -> fallback_of ds a = None) -> types_ok ds -> tokens_wf b ks ->
  meant ds sm eq s (reading b sm ks) x x' v T -> nested ds T ->
  exists n, forall n', n <= n' ->
    (limit_of ds = 0 \/ stack_for T <= limit_of ds -> exists pp, api_run n' t sm x ks = ROk (root_value ds sm s v, x') pp /\ Forall peaceful (ps_log pp)) /\
    (0 < limit_of ds < stack_for T -> stopped_full ds sm (api_run n' t sm x ks)).
Proof.
  intros OP HW HT TO Hk HM HN. destruct (reading_eq ds b EX US sm ks Hk) as (ER & _ & Hok). destruct (ex_decl ds b EX) as (opts & DE). destruct (de_start _ _ _ DE) as (s' & Hs' & As & Low).
  pose proof (op_start _ _ _ OP) as Hs. assert (s' = s) by congruence. subst s'. pose proof (ex_pipe ds b EX US) as P. pose proof (pipe_unlimited _ _ _ _ _ P) as PU. pose proof (decls_wild _ _ _ DE HW) as HW'.
  assert (TK : ties_kept g).
  { intros a l Ha. destruct (sy_fb (gsym g a)) as [f|] eqn:Ef; auto. exfalso. destruct (nth_error (g_syms g) a) as [sy|] eqn:Es; [|unfold gsym in Ef; rewrite nth_overflow in Ef by (now apply nth_error_None); discriminate].
    unfold gsym in Ef, Ha. rewrite (nth_error_nth _ _ _ Es) in Ef, Ha. destruct (string_dec (sy_name sy) "") as [En|En]; [destruct (de_anon _ _ _ DE _ _ Es En) as (_ & F & _); congruence|].
    destruct (de_sym _ _ _ DE _ _ Es En) as (E1 & E2 & _). rewrite Ha in E1. rewrite Ef in E2. cbn in E2. rewrite (HT _ _ (eq_sym E1)) in E2. discriminate. }
  destruct (proj1 (meant_tree ds g opts DE _ _ _ _ P sm _ _ (linked_direct ds g opts DE (ex_wf ds b EX)) (ex_sane ds b EX TO) (ex_auto ds b EX) (direct_match b)) _ _ _ _ _ _ HM (g_start g) _ As ER Hok) as (tr & m & HD & Hy & He & Hv & HS & ET).
  { intros a m Hin. now apply (tokval_all ds b EX US sm ks Hk a m). }
  assert (Ha : h_accept h m = Some (root_value ds sm s v)).
  { destruct (h_accept h m) as [r|] eqn:Ea.
    - f_equal. rewrite <- Hv. eapply (root_eq ds b EX US sm (direct g)); eauto. exact (direct_match b).
    - exfalso. apply (val_acc g _ _ _ _ P (ex_sane ds b EX TO) sm _ m HS Ea). }
  destruct (root_rule _ _ _ _ _ _ _ Low HM) as (i & Ts & ETs).
  assert (HR : exists r0 d0, nth_error (rules_in ds) r0 = Some d0 /\ d_lhs d0 = s).
  { inversion HM as [a0 v0 b0 n0 x0 _ Hst|i0 d w vs v0 x0 x1 x2 ts Hd _ _]; subst; eauto. discriminate. }
  destruct HR as (r0 & d0 & Hd0 & HL0). destruct (op_setup ds b opts s o r0 d0 DE OP Hd0 HL0) as (Nn & HNn & O).
  assert (HO : toks_ok g (yield tr)) by (exact (eq_ind_r (fun l => toks_ok g l) Hok Hy)).
  pose proof (nested_up ds g opts DE _ _ _ _ P s o OP Nn HNn (ex_assoc ds b EX) r0 O tr HD ltac:(rewrite ET; exact HN)) as GN.
  pose proof (nest_accepted g _ _ _ _ P (one_word ds g opts DE) r0 Nn O tr HD HO GN) as K.
  destruct (proj2 (tables_agree g _ _ _ (unlimited t) PU h HW' TK x (yield tr) (root_value ds sm s v) x' HO eq_refl)) as (n1 & pp & R1 & D1).
  { eapply (kept_rparse g _ _ _ _ P); eauto. }
  pose proof (proj1 (erase_derives g (direct g)) _ _ HD) as HDe. destruct (proj1 (lift_all g N (direct g)) _ _ HDe) as (HDl & Yl & Evl & Edl).
  assert (Ede : Claims15.dec g N (erase tr) = T).
  { rewrite <- ET. clear. revert tr. fix F 1. intros [a m|r ts]; [reflexivity|]. cbn [erase Claims15.dec]. destruct (r <? N); [|destruct ts; [reflexivity|cbn; f_equal; apply F]]. f_equal. induction ts as [|c ts IH]; [reflexivity|]. cbn [map]. f_equal; [apply F|exact IH]. }
  assert (Ol : toks_ok g (yield (lift (erase tr)))).
  { rewrite Yl, erase_yield, map_map. intros a m0 Hin. apply in_map_iff in Hin as ([a' m'] & Eq & Hin). injection Eq as <- _. exact (HO _ _ Hin). }
  pose proof (nested_up ds g opts DE _ _ _ _ P s o OP Nn HNn (ex_assoc ds b EX) r0 O (lift (erase tr)) HDl ltac:(rewrite Edl, Ede; exact HN)) as GNl.
  pose proof (nest_accepted g _ _ _ _ P (one_word ds g opts DE) r0 Nn O (lift (erase tr)) HDl Ol GNl) as Kl.
  destruct (proj2 (tables_agree g _ _ _ (unlimited t) PU tree_hooks HW' TK tt (yield (lift (erase tr))) (erase tr) tt Ol eq_refl)) as (n2 & qq & R2 & D2).
  { eapply (kept_rparse g _ _ _ _ P); eauto. }
  destruct (run_traced g _ _ _ _ PU tree_hooks n2 tt _ _ _ qq Ol R2 D2) as (tr' & v' & [_ Hy'] & He' & Ha' & HL').
  assert (EV : events tr' = events tr).
  { destruct (tree_events tr') as (v2 & Ev2 & Hv2).
    - rewrite Hy', Yl. intros a m0 Hin. apply in_map_iff in Hin as ([a' m'] & Eq & _). injection Eq as <- <-. eauto.
    - rewrite He' in Ev2. injection Ev2 as ->. cbn in Ha'. injection Ha' as ->. rewrite <- Hv2. apply erase_events. }
  assert (LG : ps_log pp = EvAccept :: rev (events tr)).
  { pose proof (run_mono (unlimited t) h n1 (Nat.max n1 n2) x (yield tr) ltac:(lia)) as Q1. pose proof (run_mono (unlimited t) tree_hooks n2 (Nat.max n1 n2) tt (yield (lift (erase tr))) ltac:(lia)) as Q2.
    rewrite R1 in Q1. rewrite R2 in Q2. specialize (Q1 ltac:(discriminate)). specialize (Q2 ltac:(discriminate)). unfold run in Q1, Q2.
    destruct (same_log (unlimited t) h tree_hooks (Nat.max n1 n2) (yield tr) (yield (lift (erase tr))) (new_parser h x) pp (new_parser tree_hooks tt) qq _ _ eq_refl eq_refl eq_refl ltac:(rewrite Yl, erase_yield, !map_map; reflexivity) Q1 Q2 D1 D2) as (l & L1 & L2).
    cbn [new_parser ps_log] in L1, L2. rewrite app_nil_r in L1, L2. rewrite L1, <- L2, HL', EV. reflexivity. }
  assert (R1' : run n1 (unlimited t) h x (map (token_value t sm) ks) = ROk (root_value ds sm s v, x') pp) by (rewrite <- Hy; exact R1).
  exists n1. intros n' Hn. pose proof (run_mono (unlimited t) h n1 n' x (map (token_value t sm) ks) Hn) as HN'. rewrite R1' in HN'. specialize (HN' ltac:(discriminate)).
  rewrite ETs in *. destruct (tree_settles tr n' x ks _ pp _ _ i Ts HD ET LG HN') as [H1 H2]. split; auto. intros H. exists pp. split; auto. rewrite LG. constructor; [exact I|].
  apply Forall_rev. eapply Forall_impl; [|apply events_calm]. exact peaceful_calm.
Qed.
End Build.
