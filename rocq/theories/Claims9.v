(** An accepted grammar without precedences has at most one derivation tree per input. *)
From Verif Require Import Base Syntax BaseFacts FrontEnd First States Actions Tables Runtime User Spec WfGrammar ClosureFacts AutoFacts LalrFacts ActFacts PipeFacts AbsFacts CleanFacts
  FrontFacts BuildFacts DeclSpec DeclFacts GramFacts LangFacts TreeSpec Main Claims2.
Open Scope string_scope. Open Scope nat_scope. Open Scope list_scope.

(** The tree a tree over the internal grammar stands for; the first [N] rules are the declared ones. *)
Fixpoint decode (g : grammar) (N : nat) (t : tree unit) : dtree :=
  match t with
  | TTok a _ => LTok (gname g a)
  | TNode r ts => if r <? N then LRule r (map (decode g N) ts) else match ts with [] => LNone | t :: _ => LSome (decode g N t) end
  end.

Lemma forall2_len {S T} (P : S -> T -> Prop) l m : Forall2 P l m -> List.length l = List.length m.
Proof. induction 1; cbn; auto. Qed.
Lemma forall2_nth_l {S T} (P : S -> T -> Prop) l m : Forall2 P l m -> forall i x, nth_error l i = Some x -> exists y, nth_error m i = Some y /\ P x y.
Proof. induction 1; intros [|i] z Hi; try discriminate; cbn in *; eauto. injection Hi as <-. eauto. Qed.

Section Trees.
Context (ds : list decl) (g : grammar) (opts : list (nat * nat)) (DE : declared ds g opts) (W : wf_grammar g).
Notation N := (List.length (rules_in ds)).
Notation word := (map (fun q : nat * unit => gname g (fst q))).
Notation tokens w := (Forall (fun a => class_of ds a = None) w).

Lemma leaf c Y : member g c Y -> upper (gname g c) -> class_of ds (gname g c) = None ->
  exists tr, derives g (direct g) Y tr /\ word (yield tr) = [gname g c] /\ toks_ok g (yield tr) /\ decode g N tr = LTok (gname g c).
Proof.
  intros HM HU HC. assert (Lc : c < List.length (g_syms g)).
  { destruct (Nat.lt_ge_cases c (List.length (g_syms g))) as [H|H]; auto. exfalso. unfold gname, gsym in HU. rewrite nth_overflow in HU by auto. cbn in HU. now apply upper_empty in HU. }
  pose proof (gname_at g c Lc) as HA. pose proof (named_term ds g opts DE c _ HA HU HC) as Ht.
  exists (TTok c tt). splits; auto; [constructor; split; auto|]. intros a m [E|[]]. injection E as <- <-. destruct (upper_kind ds g opts DE c _ HA HU) as [Hz _].
  apply (wg_term g W c Lc) in Ht. lia.
Qed.
Lemma opt_tree Y Z (ts : list (tree unit)) : In (Y, Z) opts -> ts = [] \/ (exists t, ts = [t] /\ derives g (direct g) Y t) -> exists r, N <= r /\ derives g (direct g) Z (TNode r ts).
Proof.
  intros HY Hts. destruct (de_rules _ _ _ DE) as (rs & HRs & HF). apply forall2_len in HF.
  assert (Hin : forall ru, In ru (opt_made g (Y, Z)) -> exists r, N <= r /\ nth_error (g_rules g) r = Some ru).
  { intros ru Hru. assert (H : In ru (flat_map (opt_made g) opts)) by (apply in_flat_map; eauto). apply In_nth_error in H as [k Hk]. exists (List.length rs + k). split; [lia|].
    rewrite HRs, nth_error_app2 by lia. now rewrite Nat.add_comm, Nat.add_sub. }
  destruct Hts as [->|(t & -> & Ht)].
  - destruct (Hin (mkRule Z [] COptNone None None)) as (r & Lr & Hr); [left; reflexivity|]. exists r. split; auto. apply (d_node g _ r _ [] Hr). constructor.
  - destruct (Hin (mkRule Z [(Y, true)] COptSome None (rhs_sym_prec g Y))) as (r & Lr & Hr); [right; left; reflexivity|]. exists r. split; auto. apply (d_node g _ r _ [t] Hr). cbn. constructor; [auto|constructor].
Qed.

Lemma encode :
  (forall n w T, tree_of ds n w T -> tokens w -> forall Y, at_name g Y n ->
     exists tr, derives g (direct g) Y tr /\ word (yield tr) = w /\ toks_ok g (yield tr) /\ decode g N tr = T) /\
  (forall e w T, elem_tree ds e w T -> tokens w -> forall Y, elem_sym g opts e Y ->
     exists tr, derives g (direct g) Y tr /\ word (yield tr) = w /\ toks_ok g (yield tr) /\ decode g N tr = T) /\
  (forall es w Ts, trees_of ds es w Ts -> tokens w -> forall Ys, Forall2 (elem_sym g opts) es Ys ->
     exists trs, derives_all g (direct g) Ys trs /\ word (flat_map yield trs) = w /\ toks_ok g (flat_map yield trs) /\ map (decode g N) trs = Ts).
Proof.
  apply tree_of_both.
  - intros a n [U Hst] Hw Y HY. inversion Hw as [|? ? Hc _]; subst. destruct (sym_decl _ _ _ DE _ _ HY (upper_nonempty _ U)) as (_ & _ & HM). destruct (class_of ds n) as [l|] eqn:Ec.
    + destruct (sy_kind (gsym g Y)) as [| |ms] eqn:Ek; try discriminate. injection HM as <-. apply in_map_iff in Hst as (m & <- & Hm).
      assert (HK : kind_at g Y = Some (KMulti ms)) by (rewrite (at_kind g _ _ HY); congruence). apply leaf; auto; [right; eauto|]. eapply de_multi; eauto.
    + subst a. pose proof (at_gname g _ _ HY) as En. rewrite <- En in U, Hc. rewrite <- En. apply leaf; auto. left. split; auto. eapply named_term; eauto. now rewrite <- En.
  - intros i r w Ts Hi _ IH Hw Y HY. destruct (de_rules _ _ _ DE) as (rs & HRs & HF). destruct (forall2_nth_l _ _ _ HF _ _ Hi) as (ru & Hru & RM).
    destruct (IH Hw _ (rm_rhs _ _ _ _ RM)) as (trs & HD & Hwd & Hok & Hdec). exists (TNode i trs). splits; auto.
    + rewrite (de_uniq _ _ _ DE Y (r_lhs ru) (d_lhs r)); auto; [|apply RM|apply lower_nonempty, (rm_low _ _ _ _ RM)]. econstructor; eauto. rewrite HRs. now apply nth_error_ext.
    + cbn [decode]. assert (L : i < N) by (apply nth_error_Some; congruence). apply Nat.ltb_lt in L. rewrite L. congruence.
  - intros n al w T _ IH Hw Y [_ HY]. eauto.
  - intros n al Hw Y (_ & Z & HZ & HZn). destruct (opt_tree Z Y [] HZ (or_introl eq_refl)) as (r & Lr & HD). exists (TNode r []). splits; auto; [intros ? ? []|]. cbn [decode]. apply Nat.ltb_ge in Lr. now rewrite Lr.
  - intros n al w T _ IH Hw Y (_ & Z & HZ & HZn). destruct (IH Hw Z HZn) as (tr & Ht & Hwd & Hok & Hdec). destruct (opt_tree Z Y [tr] HZ) as (r & Lr & HD); eauto. exists (TNode r [tr]).
    cbn [yield flat_map decode]. rewrite app_nil_r. splits; auto. apply Nat.ltb_ge in Lr. rewrite Lr. congruence.
  - intros ns o al a Hl Ha Hw Y He. inversion Hw as [|? ? Hc _]; subst. destruct ns as [|n1 [|n2 ns]]; try (simpl in Hl; lia). destruct He as (HU & _ & ms & HK & HF).
    destruct (forall2_in_r _ _ _ HF _ Ha) as (m & Hm & Am). rewrite <- (at_gname g _ _ Am) in *. apply leaf; auto; [right; eauto|]. rewrite Forall_forall in HU. now apply HU.
  - intros _ Ys HF. inversion HF; subst. exists []. splits; auto; [constructor|intros ? ? []].
  - intros e es w1 w2 T Ts _ IH1 _ IH2 Hw Ys HF. apply Forall_app in Hw as [Hw1 Hw2]. inversion HF as [|? Y ? Ys' He HF']; subst.
    destruct (IH1 Hw1 Y He) as (tr & D1 & <- & O1 & <-), (IH2 Hw2 Ys' HF') as (trs & D2 & <- & O2 & <-). exists (tr :: trs). splits; auto; [constructor; auto|cbn; apply map_app|].
    cbn. intros a m Hin. apply in_app_iff in Hin as [Hin|Hin]; eauto.
Qed.

(** Tokens are known by their names. *)
Lemma word_inj (l1 l2 : list (nat * unit)) : toks_ok g l1 -> toks_ok g l2 -> word l1 = word l2 -> l1 = l2.
Proof.
  revert l2. induction l1 as [|[a []] l1 IH]; intros [|[c []] l2] H1 H2 E; try discriminate; auto. cbn in E. injection E as E0 E. f_equal.
  - f_equal. destruct (term_name ds g opts DE W a (H1 a tt (or_introl eq_refl))) as (A1 & U1 & _), (term_name ds g opts DE W c (H2 c tt (or_introl eq_refl))) as (A2 & _). rewrite <- E0 in A2.
    eapply de_uniq; eauto. now apply upper_nonempty.
  - apply IH; auto; intros x m Hin; [apply (H1 x m)|apply (H2 x m)]; now right.
Qed.
End Trees.

Section Build.
Context (ds : list decl) (b : built).
Hypothesis EX : expands ds b.

(** C03: two derivation trees of the same token string are the same, in every grammar that the
    macro accepts without precedences. *)
Theorem trees_unique s w T1 T2 : (forall n, assoc_of ds n = None) -> start_of ds = Some s -> Forall (fun a => class_of ds a = None) w ->
  tree_of ds s w T1 -> tree_of ds s w T2 -> T1 = T2.
Proof.
  intros NP Hs Hw H1 H2. destruct (ex_decl ds b EX) as (opts & DE). pose proof (ex_wf ds b EX) as W. destruct (de_start _ _ _ DE) as (s' & Hs' & As & _). assert (s' = s) by congruence. subst s'.
  destruct (proj1 (encode ds _ opts DE W) _ _ _ H1 Hw _ As) as (t1 & D1 & E1 & O1 & <-). destruct (proj1 (encode ds _ opts DE W) _ _ _ H2 Hw _ As) as (t2 & D2 & E2 & O2 & <-). f_equal.
  assert (SG : single (bt_grammar b) (bt_auto b)).
  { eapply clean_single; [apply (ex_aut ds b EX)|apply (ex_settled' ds b EX)|]. eapply decls_clean; eauto. }
  eapply unambiguous; eauto using ex_aut. eapply word_inj; eauto. congruence.
Qed.
End Build.
