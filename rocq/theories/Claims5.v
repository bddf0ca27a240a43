(** Guarantees about what is accepted and how it is numbered, typed and shared: optional symbols
    (C26), static checks (C27), numbering (C28), types (C32), classes (C33), rule precedences
    (C34), compression (C35). *)
From Verif Require Import Base Syntax BaseFacts FrontEnd First States Actions Tables Runtime User Spec WfGrammar FirstFacts ClosureFacts AutoFacts LalrFacts ActFacts GroupFacts CompFacts TabFacts PackFacts LookFacts PipeFacts RunFacts FrontFacts
  SoundFacts SafeFacts BuildFacts AbsFacts HaltFacts TermFacts CompleteFacts CleanFacts RefFacts DeclSpec DeclFacts GramFacts LangFacts TypeFacts MeanSpec MeanFacts TypeDecl RunMore Main Claims Claims2 DeclMore Claims3 Claims4.
Open Scope string_scope. Open Scope nat_scope. Open Scope list_scope.

Section Any.
Context (ds : list decl) (b : built).
Notation g := (bt_grammar b). Notation t := (bt_tables b).
Hypothesis EX : expands ds b.
Notation Au := (ex_aut ds b EX).
Notation W := (ex_wf ds b EX).
Notation ns := (List.length (p_states (bt_auto b))).

(** ** C27 *)
Lemma item_back r : forall d s, item (bt_auto b) s (r, d) -> forall d', d' <= d -> exists s', item (bt_auto b) s' (r, d').
Proof.
  induction d as [|d IH]; intros s Hi d' Ld; [exists s; now replace d' with 0 by lia|]. destruct (Nat.eq_dec d' (S d)) as [->|Hne]; eauto.
  pose proof (au_range g _ Au _ _ Hi) as Ls. destruct (au_pred g _ Au s Ls) as [->|(s' & Y & _ & He)]; [apply (au_dot g _ Au) in Hi; discriminate|].
  destruct (au_back g _ Au _ _ _ _ He Hi) as ([r0 d0] & Hi' & _ & E); [cbn; lia|]. cbn in E. injection E as <- <-. eapply IH; eauto. lia.
Qed.
Definition names_of (e : rhs_elem) : list ident := let '(ns, _, _) := e in ns.

Theorem start_not_used : exists s, start_of ds = Some s /\ forall d e, In d (rules_in ds) -> In e (d_rhs d) -> ~ In s (names_of e).
Proof.
  destruct (ex_decl ds b EX) as (opts & DE). destruct (de_start _ _ _ DE) as (s & Hs & As & Low). exists s. split; auto. intros d [[toks o] al] Hd He Hin. cbn in Hin.
  assert (Hne : s <> "") by (intros ->; discriminate). destruct (de_rules _ _ _ DE) as (rs & HR & HF). destruct (forall2_in_l _ _ _ HF _ Hd) as (ru & Hru & RM).
  assert (Hru' : In ru (g_rules g)) by (rewrite HR; apply in_or_app; now left). apply In_nth_error in Hru' as (r & Hr).
  destruct (forall2_in_l _ _ _ (rm_rhs _ _ _ _ RM) _ He) as (Y & HY & HE). apply in_map_iff in HY as ([Y' a] & E & HY). cbn in E. subst Y'. pose proof (au_nostart g _ Au _ _ _ _ Hr HY) as NS. cbn in HE.
  destruct toks as [|n1 [|n2 toks]]; [destruct HE| |].
  - destruct Hin as [->|[]]. destruct HE as [_ HE]. destruct o.
    + destruct HE as (Z & HZ & AZ). assert (Z = g_start g) by (eapply (de_uniq _ _ _ DE); eauto). subst Z.
      assert (Hop : In (mkRule Y [(g_start g, true)] COptSome None (rhs_sym_prec g (g_start g))) (g_rules g)) by (rewrite HR; apply in_or_app; right; apply in_flat_map; exists (g_start g, Y); split; auto; right; now left).
      apply In_nth_error in Hop as (q & Hq). eapply (au_nostart g _ Au q _ (g_start g) true Hq); [now left|auto].
    + apply NS. eapply (de_uniq _ _ _ DE); eauto.
  - destruct HE as (HU & _). rewrite Forall_forall in HU. apply (upper_lower s); auto.
Qed.
Theorem symbols_have_rules d e n : In d (rules_in ds) -> In e (d_rhs d) -> In n (names_of e) -> lower n -> n = "error" \/ exists d', In d' (rules_in ds) /\ d_lhs d' = n.
Proof.
  intros Hd He Hin Low. destruct (ex_decl ds b EX) as (opts & DE). destruct e as [[toks o] al]. cbn in Hin.
  assert (Hne : n <> "") by (intros ->; discriminate). destruct (de_rules _ _ _ DE) as (rs & HR & HF).
  assert (HK : forall r ru Y a, nth_error (g_rules g) r = Some ru -> In (Y, a) (r_rhs ru) -> at_name g Y n -> n = "error" \/ exists d', In d' (rules_in ds) /\ d_lhs d' = n).
  { intros r ru Y a Hr HY AY. apply In_nth_error in HY as (j & Hj). assert (Lr : r < List.length (g_rules g)) by (apply nth_error_Some; congruence).
    destruct EX as (fuel & ord & Ho & HB) eqn:EE. destruct (every_rule_used _ _ _ _ Ho HB r Lr) as (s & la & Ls & _ & HL). rewrite (grule_nth _ _ _ Hr) in HL.
    assert (Lj : j < List.length (r_rhs ru)) by (apply nth_error_Some; congruence).
    destruct (item_back r _ s (look_item _ _ _ _ HL) j ltac:(lia)) as (s' & Hi). assert (HP : kpost g (r, j) = Some Y) by (unfold kpost; cbn; now rewrite (grule_nth _ _ _ Hr), Hj).
    assert (Ky : kind_at g Y = Some KNonTerm).
    { destruct AY as (sy & Hsy & En). unfold kind_at. rewrite Hsy. cbn. f_equal. destruct (de_named _ _ _ DE _ _ Hsy ltac:(congruence)) as [(_ & E & _)|[(U & _)|[(_ & K)|[(_ & K)|(_ & _ & K)]]]]; auto.
      - rewrite <- En, E in Low. discriminate. - rewrite En in U. now destruct (upper_lower n). }
    destruct (au_rules g _ Au _ _ _ Hi HP Ky) as [HN| ->].
    - right. destruct (rules_of g Y) as [|q l] eqn:El; [contradiction|]. assert (Hq : In q (rules_of g Y)) by (rewrite El; now left). apply in_rules_of in Hq as (qu & Hq & Eq).
      destruct (rule_cases ds g opts DE q qu Hq) as [(d' & Hd' & RM')|(Z & Z' & HZ & EZ & _)].
      + exists d'. split; auto. pose proof (rm_lhs _ _ _ _ RM') as A'. rewrite Eq in A'. destruct AY as (s1 & A1 & A2), A' as (s2 & B1 & B2). congruence.
      + exfalso. destruct (de_opts _ _ _ DE _ _ HZ) as (_ & k & Ak). rewrite <- EZ, Eq in Ak. apply (opt_not_id k n (or_intror Low)). rewrite <- (at_gname g _ _ AY). now apply at_gname.
    - left. pose proof (de_error _ _ _ DE) as (s1 & A1 & A2). destruct AY as (s2 & B1 & B2). congruence. }
  destruct (forall2_in_l _ _ _ HF _ Hd) as (ru & Hru & RM).
  assert (Hru' : In ru (g_rules g)) by (rewrite HR; apply in_or_app; now left). apply In_nth_error in Hru' as (r & Hr).
  destruct (forall2_in_l _ _ _ (rm_rhs _ _ _ _ RM) _ He) as (Y & HY & HE). apply in_map_iff in HY as ([Y' a] & E & HY). cbn in E. subst Y'. cbn in HE.
  destruct toks as [|n1 [|n2 toks]]; [destruct HE| |].
  - destruct Hin as [->|[]]. destruct HE as [_ HE]. destruct o; [|eauto]. destruct HE as (Z & HZ & AZ).
    assert (Hop : In (mkRule Y [(Z, true)] COptSome None (rhs_sym_prec g Z)) (g_rules g)) by (rewrite HR; apply in_or_app; right; apply in_flat_map; exists (Z, Y); split; auto; right; now left).
    apply In_nth_error in Hop as (q & Hq). eapply HK; eauto. now left.
  - exfalso. destruct HE as (HU & _). rewrite Forall_forall in HU. apply (upper_lower n); auto.
Qed.
Theorem rules_reduced k d : nth_error (rules_in ds) k = Some d -> exists s la, s < ns /\ can_reduce b s k la /\ In (mkAct la (Reduce k)) (acts (bt_acts b) s).
Proof.
  intros Hd. destruct (ex_decl ds b EX) as (opts & DE). destruct (de_rules _ _ _ DE) as (rs & HR & HF). 
  assert (Lk : k < List.length (g_rules g)) by (assert (k < List.length (rules_in ds)) by (apply nth_error_Some; congruence); pose proof (f2_len _ _ _ HF) as EL; rewrite HR, app_length; lia).
  destruct EX as (fuel & ord & Ho & HB) eqn:EE. destruct (every_rule_used _ _ _ _ Ho HB k Lk) as (s & la & Ls & Hin & HL). exists s, la. splits; auto.
  pose proof HL as HL'. apply (lalr_exact g _ Au) in HL' as (gamma & Hg & HL'); auto. exists gamma, (grule g k). splits; auto; [split; auto|apply nth_error_nth'; auto].
Qed.
(** Nothing is declared twice. *)
Theorem nothing_twice :
  (forall k i j d e, nth_error ds i = Some d -> nth_error ds j = Some e -> single_kind d = Some k -> single_kind e = Some k -> i = j) /\
  (forall l1 l2 na n o, ds = l1 ++ DType na n o :: l2 -> type_of l1 n = None) /\
  (forall l1 l2 a ids, ds = l1 ++ DAssoc a ids :: l2 -> NoDup ids /\ forall n, In n ids -> assoc_of l1 n = None) /\
  (forall l1 l2 fb ids, ds = l1 ++ DFallback fb ids :: l2 -> NoDup ids /\ forall n, In n ids -> fallback_of l1 n = None).
Proof.
  destruct (ex_front ds b EX) as (fuel & f0 & f & ord & H0 & _). splits.
  - intros k i j d e Hi Hj Hd He. now destruct (singles_fold _ _ _ _ H0 J_init k i j d e Hi Hj Hd He).
  - intros l1 l2 na n o E. rewrite E in H0. eapply type_once; eauto.
  - intros l1 l2 a ids E. rewrite E in H0. eapply assoc_once; eauto.
  - intros l1 l2 fb ids E. rewrite E in H0. eapply fallback_once; eauto.
Qed.
End Any.

(** ** C32: every block gets values of the declared types *)
(** The type of the value of an element *)
Definition value_type (ds : list decl) (e : rhs_elem) : option ty :=
  let '(ns, o, _) := e in
  match ns with
  | [] => None
  | [n] => if (o : bool) then Some (TyOption (or_unit (raw_type ds n))) else name_type ds n
  | c :: _ => orelse (own_of ds c) (default_type_of ds)
  end.
(** [has ty v]: the value [v] is of type [ty]; a symbol without a type may have any value. *)
Definition fits {V} (has : ty -> V -> bool) (o : option ty) (v : V) : bool := match o with Some ty => has ty v | None => true end.
(** The elements whose values the code of a rule uses *)
Definition uses (ds : list decl) (d : drule) (e : rhs_elem) : bool :=
  match d_code d with
  | Some _ => is_aliased e
  | None => match type_of ds (d_lhs d) with Some _ => opt_is_some (elem_type ds e) | None => false end
  end.
(** The code is well typed, as the Rust compiler checks: given values of the declared types for
    the elements it uses, the code of a rule gives a value of the type of its left-hand side; so
    does the code for [X?] and the %syntax_error block. *)
Record well_typed (ds : list decl) {V X E} (has : ty -> V -> bool) (sm : sem V X E) : Prop := {
  wt_rule : forall d vs x x' v, In d (rules_in ds) -> Forall2 (fun e v => uses ds d e = true -> fits has (value_type ds e) v = true) (d_rhs d) vs ->
    result ds sm d vs x = Some (x', inl v) -> fits has (name_type ds (d_lhs d)) v = true;
  wt_none : forall d n al, In d (rules_in ds) -> In ([n], true, al) (d_rhs d) -> has (TyOption (or_unit (raw_type ds n))) (v_none sm) = true;
  wt_some : forall d n al v, In d (rules_in ds) -> In ([n], true, al) (d_rhs d) -> fits has (name_type ds n) v = true -> has (TyOption (or_unit (raw_type ds n))) (v_some sm v) = true;
  wt_error : forall k l x x' v, u_syntax sm k l x = (x', inl v) -> fits has (name_type ds "error") v = true }.
(** The parser with a check before every block: if the value of an element with an alias is not
    of the type of the element, it panics. *)
Definition guarded {V X E} (ds : list decl) (t : tables) (has : ty -> V -> bool) (sm : sem V X E) : hooks (minor V) X E V :=
  let h := user_hooks t sm in
  mkHooks (fun r vals x =>
      match nth_error (rules_in ds) r with
      | Some d => if forallb (fun q => negb (is_aliased (fst q)) || fits has (value_type ds (fst q)) (snd (snd q))) (combine (d_rhs d) vals) then h_reduce h r vals x else None
      | None => h_reduce h r vals x
      end)
    (h_accept h) (h_syntax h) (h_fail h) (h_overflow h) (h_unit h).
(** The data of the tokens is of their declared types. *)
Definition typed_tokens {V} (ds : list decl) (b : built) (has : ty -> V -> bool) (ks : list (token V)) : Prop :=
  forall i v, In (i, Some v) ks -> fits has (name_type ds (tok_name b i)) v = true.

Section Typed.
Context (ds : list decl) (b : built).
Notation g := (bt_grammar b). Notation t := (bt_tables b).
Hypothesis EX : expands ds b.
Hypothesis US : usable ds b.
Notation P := (ex_pipe ds b EX US).
Notation W := (ex_wf ds b EX).
Context {V X E : Type} (sm : sem V X E) (has : ty -> V -> bool).

Lemma vfits_fits o v : vfits has o v <-> fits has o v = true.
Proof. destruct o; cbn; split; auto. Qed.
Lemma elem_dtype opts e Y : declared ds g opts -> elem_sym g opts e Y -> g_wild g <> Some Y -> dtype g Y = value_type ds e.
Proof.
  intros DE HE HW. destruct e as [[ns o] al]. destruct ns as [|a [|a2 ns]]; [destruct HE| |]; cbn [value_type].
  - destruct HE as [Ha HE]. destruct o.
    + destruct HE as (Z & HZ & AZ). assert (EW : wild g Y = false) by (destruct (wild g Y) eqn:E0; auto; apply wild_iff in E0; contradiction).
      destruct (de_opts _ _ _ DE _ _ HZ) as (_ & k & Hk). pose proof (opt_nonterm ds g opts DE k Y Hk) as HK. unfold dtype. rewrite EW, (kind_at_gsym _ _ _ HK). unfold own_type. rewrite EW, (de_type_opt _ _ _ DE _ _ HZ). cbn.
      do 3 f_equal. now apply (de_type _ _ _ DE).
    + eapply dtype_name; eauto. apply W.
  - destruct HE as (HU & HY & ms & HK & HF). assert (EW : wild g Y = false) by (destruct (wild g Y) eqn:E0; auto; apply wild_iff in E0; contradiction).
    inversion HF as [|c ? ms' ? Hc HF']; subst. unfold dtype. rewrite EW, (kind_at_gsym _ _ _ HK), (de_dflt _ _ _ DE). f_equal. inversion HU; subst. eapply own_name; eauto.
Qed.

Lemma f2_nth_l {A B} (R : A -> B -> Prop) l m : Forall2 R l m -> forall i a, nth_error l i = Some a -> exists c, nth_error m i = Some c /\ R a c.
Proof. induction 1 as [|x y l m HR HF IH]; intros [|i] a H; try discriminate; cbn in *; eauto. injection H as <-. eauto. Qed.
Lemma fill (rhs : list (nat * bool)) : forall args, Forall2 (vfits has) (map (fun q => dtype g (fst q)) (filter snd rhs)) args ->
  exists vs, args = map snd (filter fst (combine (map snd rhs) vs)) /\ Forall2 (fun q v => snd q = true -> vfits has (dtype g (fst q)) v) rhs vs.
Proof.
  induction rhs as [|[Y f] rhs IH]; intros args HF; cbn in HF.
  - inversion HF; subst. exists []. split; auto.
  - destruct f; cbn in HF.
    + inversion HF as [|? v ? args' Hv HF']; subst. destruct (IH args' HF') as (vs & -> & HV). exists (v :: vs). split; auto.
    + destruct (IH args HF) as (vs & -> & HV). exists (v_unit sm :: vs). split; auto. constructor; auto. discriminate.
Qed.
Lemma not_wild ru Y : In ru (g_rules g) -> In (Y, true) (r_rhs ru) -> g_wild g <> Some Y.
Proof. intros H1 H2. now destruct (rule_checked g _ _ _ t P ru Y H1 H2). Qed.
Lemma used_fit opts d ru vs : declared ds g opts -> rule_made g opts d ru -> In ru (g_rules g) -> map snd (r_rhs ru) = map (uses ds d) (d_rhs d) ->
  Forall2 (fun q v => snd q = true -> vfits has (dtype g (fst q)) v) (r_rhs ru) vs -> Forall2 (fun e v => uses ds d e = true -> fits has (value_type ds e) v = true) (d_rhs d) vs.
Proof.
  intros DE RM Hru HM HV. pose proof (rm_rhs _ _ _ _ RM) as HR. assert (HN : forall Y, In (Y, true) (r_rhs ru) -> g_wild g <> Some Y) by (intros Y; now apply not_wild).
  clear RM Hru. revert HM HR HN vs HV. generalize (r_rhs ru) as rhs. induction (d_rhs d) as [|e es IH]; intros [|[Y f] rhs] HM HR HN vs HV; try discriminate; inversion HV as [|? v ? vs' Hv HV']; subst; constructor.
  - injection HM as Hf HM. inversion HR as [|? ? ? ? He HR']; subst. intros Hu. rewrite Hu in *. cbn in *. rewrite <- (elem_dtype opts e Y DE He) by (apply HN; now left). apply vfits_fits. now apply Hv.
  - injection HM as Hf HM. inversion HR; subst. eapply IH; eauto. intros Y' H'. apply HN. now right.
Qed.
Lemma code_well : well_typed ds has sm -> code_ok g t sm has.
Proof.
  intros WT. destruct (ex_decl ds b EX) as (opts & DE). constructor.
  - intros ru args x x' v Hru HA HC. destruct (In_nth_error _ _ Hru) as (r & Hr). apply vfits_fits.
    destruct (opt_rule ds g opts DE r ru Hr) as [(d & Hd & RM)|(Y & Z & HY & HR)].
    + rewrite (dtype_name ds g opts DE W _ _ (rm_lhs _ _ _ _ RM)) by (right; apply RM).
      destruct (fill (r_rhs ru) args HA) as (vs & -> & HV). rewrite (made_code ds g opts DE sm d ru) in HC by auto.
      pose proof (rm_code _ _ _ _ RM) as HCo. pose proof (lhs_has_type ds g opts DE _ _ RM) as HL. destruct (d_code d) as [c|] eqn:Ec.
      * eapply wt_rule; eauto. eapply used_fit; eauto. unfold uses. rewrite Ec. apply HCo.
      * destruct HCo as [(_ & HT & _)|(_ & HT & _ & HB & _)]; rewrite HT in HL.
        { eapply (wt_rule _ _ _ WT d vs); eauto. assert (EL : List.length (d_rhs d) = List.length vs) by (rewrite <- (f2_len _ _ _ HV), <- (map_length fst (r_rhs ru)); apply (f2_len _ _ _ (rm_rhs _ _ _ _ RM))).
          clear -EL HL Ec. unfold uses. rewrite Ec. destruct (type_of ds (d_lhs d)); [discriminate|]. clear HL. revert vs EL. induction (d_rhs d) as [|e es IH]; intros [|v vs] EL; try discriminate; constructor; [discriminate|]. apply IH. now injection EL. }
        { eapply (wt_rule _ _ _ WT d vs); eauto. eapply used_fit; eauto. unfold uses. rewrite Ec, HB. destruct (type_of ds (d_lhs d)); [|discriminate]. now apply (rhs_flags ds g opts DE). }
    + destruct (opt_used ds b EX opts Y Z DE HY) as (d & n & al & Hd & He & An). destruct (de_opts _ _ _ DE _ _ HY) as ((n' & An' & Hn) & k & Hk).
      assert (n' = n) by (apply at_gname in An, An'; congruence). subst n'.
      assert (ES : elem_sym g opts ([n], true, al) Z) by (split; eauto). assert (NW : g_wild g <> Some Z) by (intros E0; destruct (wg_wild g W _ E0) as (_ & _ & H0); apply H0; now apply (opt_nonterm ds g opts DE k)).
      assert (EZ : r_lhs ru = Z) by (destruct HR as [<-|[<-|[]]]; reflexivity). rewrite EZ, (elem_dtype opts _ _ DE ES NW). cbn [value_type].
      destruct HR as [<-|[<-|[]]]; cbn in HC, HA.
      * inversion HA; subst. injection HC as <- <-. cbn. eapply wt_none; eauto.
      * inversion HA as [|? v0 ? l Hv HA']; subst. inversion HA'; subst. injection HC as <- <-. cbn. eapply wt_some; eauto. apply vfits_fits. rewrite <- (dtype_name ds g opts DE W _ _ An) by auto. exact Hv.
  - intros Hne k l x x' v Hu. apply vfits_fits. pose proof (t_er _ _ _ _ _ P) as ET. assert (EE : t_err t = g_error g) by (destruct (1 <? _); [auto|contradiction]). rewrite EE. rewrite (dtype_name ds g opts DE W _ _ (de_error _ _ _ DE)) by now right. eapply wt_error; eauto.
Qed.


Lemma match_guard opts es : declared ds g opts -> forall rt vals args,
  Forall2 (elem_sym g opts) es (map (fun x : nat * bool * nat => fst (fst x)) rt) -> (forall Y dt, In (Y, true, dt) rt -> g_wild g <> Some Y) ->
  map (fun x : nat * bool * nat => snd (fst x)) rt = map is_aliased es -> match_args rt vals = Some args ->
  fitb has (map (fun x : nat * bool * nat => dtype g (fst (fst x))) (filter (fun x => snd (fst x)) rt)) args = true ->
  forallb (fun q => negb (is_aliased (fst q)) || fits has (value_type ds (fst q)) (snd (snd q))) (combine es vals) = true.
Proof.
  intros DE. induction es as [|e es IH]; intros [|[[Y f] dt] rt] [|[dv v] vals] args HR HN HM HA HF; try discriminate; auto.
  cbn in HR, HM. inversion HR as [|? ? ? ? He HR']; subst. injection HM as Hf HM. cbn [combine forallb fst snd]. cbn in HA. apply andb_true_iff. rewrite <- Hf. destruct f.
  - destruct (dv =? dt); [|discriminate]. destruct (match_args rt vals) as [a|] eqn:Ea; [|discriminate]. injection HA as <-. cbn in HF. apply andb_true_iff in HF as [HF1 HF2]. split.
    + cbn. rewrite <- (elem_dtype opts e Y DE He) by (eapply HN; left; reflexivity). destruct (dtype g Y); auto.
    + eapply IH; eauto. intros Y' dt' H'. eapply HN. right. exact H'.
  - split; auto. eapply IH; eauto. intros Y' dt' H'. eapply HN. right. exact H'.
Qed.
Lemma filter_comp {A B} (f : A -> B) (q : B -> bool) l : filter q (map f l) = map f (filter (fun x => q (f x)) l).
Proof. induction l as [|a l IH]; cbn; auto. destruct (q (f a)); cbn; now rewrite IH. Qed.
Lemma checked_guarded r vals x y : h_reduce (checked_hooks g t sm has) r vals x = Some y -> h_reduce (guarded ds t has sm) r vals x = Some y.
Proof.
  cbn [h_reduce checked_hooks guarded]. unfold checked_reduce. intros H. destruct (match_args _ vals) as [args|] eqn:Em; [|discriminate].
  destruct (fitb has _ args) eqn:Ef; [|discriminate]. cbn [h_reduce user_hooks]. destruct (nth_error (rules_in ds) r) as [d|] eqn:Ed; auto.
  destruct (ex_decl ds b EX) as (opts & DE). destruct (de_rules _ _ _ DE) as (rs & HR & HF). destruct (f2_nth_l _ _ _ HF _ _ Ed) as (ru & Hru & RM).
  assert (Hr : nth_error (g_rules g) r = Some ru) by (rewrite HR, nth_error_app1; auto; apply nth_error_Some; congruence).
  assert (Lr : r < List.length (g_rules g)) by (apply nth_error_Some; congruence). destruct (rule_entry g _ _ _ t P r Lr) as (rr & Hrr & HL & Hrhs & Hcode & Hdt & Hdts).
  rewrite (nth_error_nth _ _ _ Hrr) in Em. rewrite (grule_nth _ _ _ Hr) in *.
  match goal with |- (if ?c then _ else _) = _ => assert (HG : c = true); [|now rewrite HG] end.
  assert (HA : map snd (r_rhs ru) = map is_aliased (d_rhs d) \/ Forall (fun e => is_aliased e = false) (d_rhs d)).
  { pose proof (rm_code _ _ _ _ RM) as HC. destruct (d_code d); [left; apply HC|]. destruct HC as [(_ & _ & HC)|(_ & _ & HC & _)]; auto. }
  destruct HA as [HA|HA].
  - eapply match_guard with (rt := rr_rhs rr); eauto.
    + pose proof (rm_rhs _ _ _ _ RM) as HS. rewrite <- Hrhs, map_map in HS. exact HS.
    + intros Y dt0 HY. apply not_wild with (ru := ru); [eapply nth_error_In; eauto|]. rewrite <- Hrhs. apply in_map_iff. exists (Y, true, dt0). auto.
    + rewrite <- HA, <- Hrhs, map_map. reflexivity.
    + rewrite <- Hrhs, filter_comp, map_map in Ef. exact Ef.
  - clear -HA. revert vals. induction HA as [|e es He HA IH]; intros [|v vals]; cbn; auto. now rewrite He, IH.
Qed.

Theorem typed_values n x ks : types_ok ds -> well_typed ds has sm -> tokens_wf b ks -> typed_tokens ds b has ks ->
  api_run n t sm x ks <> RPanic /\ run n t (guarded ds t has sm) x (map (token_value t sm) ks) = api_run n t sm x ks.
Proof.
  intros TO WT HW HT. destruct (ex_decl ds b EX) as (opts & DE).
  pose proof (checked_ok g _ _ _ t P (ex_sane ds b EX TO) (ex_auto ds b EX) sm has (code_well WT)) as CO.
  assert (IO : input_ok g (tokval g t has) (map (token_value t sm) ks)).
  { intros a m Hin. destruct (tokval_all ds b EX US sm ks HW a m Hin) as (La & L & Hf & _). split; auto. split; auto. split; auto. apply vfits_fits.
    apply in_map_iff in Hin as ([i o] & Ek & Hk). injection Ek as <- <-. cbn [fst snd] in *. unfold tokens_wf in HW. rewrite Forall_forall in HW. destruct (HW _ Hk) as [_ Hty]. cbn in Hty.
    destruct (term_name ds g opts DE W i La) as (Ai & Ui & _). rewrite (dtype_name ds g opts DE W _ _ Ai) by now left. destruct o as [v|].
    - specialize (HT i v Hk). rewrite (name_eq ds b EX US) in HT by lia. exact HT.
    - destruct (typed t i) eqn:Et; [exfalso; now apply Hty|]. rewrite <- (dtype_name ds g opts DE W _ _ Ai) by now left.
      assert (ED : dtype g i = None); [|now rewrite ED]. destruct (dtype g i) as [ty0|] eqn:ED; auto. exfalso. pose proof (typed_iff g _ _ _ t P i L) as H0. rewrite ED in H0. cbn in H0. congruence. }
  pose proof (run_safe g _ _ _ t P _ _ _ CO n x _ IO) as NP.
  pose proof (run_follows t (checked_hooks g t sm has) (guarded ds t has sm) checked_guarded eq_refl eq_refl eq_refl eq_refl eq_refl n x (map (token_value t sm) ks)) as [F1|F1]; [contradiction|].
  assert (F2 : RunMore.follows (run n t (checked_hooks g t sm has) x (map (token_value t sm) ks)) (run n t (user_hooks t sm) x (map (token_value t sm) ks))).
  { apply run_follows; auto. intros r vals x0 y H. cbn [h_reduce checked_hooks] in H. unfold checked_reduce in H. destruct (match_args _ vals); [|discriminate]. destruct (fitb has _ _); [exact H|discriminate]. }
  destruct F2 as [F2|F2]; [contradiction|]. unfold api_run. rewrite F2, F1. auto.
Qed.
End Typed.
