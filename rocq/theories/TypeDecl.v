(** Further facts about a successful build in terms of the declarations: symbol types, the
    names that may have precedences and fallbacks, the rules of the start symbol. *)
From Verif Require Import Base Syntax BaseFacts FrontEnd First States Actions Tables Runtime User Spec WfGrammar FirstFacts ClosureFacts AutoFacts LalrFacts ActFacts LookFacts PipeFacts RunFacts FrontFacts
  BuildFacts DeclSpec DeclFacts GramFacts LangFacts MeanSpec TypeFacts.
Open Scope string_scope. Open Scope nat_scope. Open Scope list_scope.

(** The type of a name, after %extra_token and %default_type: the wildcard has none, a class
    has that of its first member. *)
Definition is_wild (ds : list decl) (n : ident) : bool := match wildcard_of ds with Some w => String.eqb w n | None => false end.
Definition own_of (ds : list decl) (n : ident) : option ty := if is_wild ds n then None else orelse (raw_type ds n) (default_type_of ds).
Definition name_type (ds : list decl) (n : ident) : option ty :=
  if is_wild ds n then None
  else match class_of ds n with
       | Some (c :: _) => orelse (own_of ds c) (default_type_of ds)
       | _ => own_of ds n
       end.

(** Conditions on types that the macro does not check, though the generated code needs them:
    a token that falls back to a token without data has no data; the wildcard is in no class
    and no alternatives; if the start symbol has no type, nothing is of type [()]. *)
Record types_ok (ds : list decl) : Prop := {
  to_fb : forall a c, fallback_of ds a = Some c -> name_type ds c = None -> name_type ds a = None;
  to_class : forall w n ms, wildcard_of ds = Some w -> class_of ds n = Some ms -> ~ In w ms;
  to_alt : forall w d ns o al, wildcard_of ds = Some w -> In d (rules_in ds) -> In (ns, o, al) (d_rhs d) -> 2 <= List.length ns -> ~ In w ns;
  to_start : (forall s, start_of ds = Some s -> name_type ds s <> None) \/
    (default_type_of ds <> Some TyUnit /\ extra_token_of ds <> Some TyUnit /\ forall n, type_of ds n <> Some TyUnit) }.

Section Types.
Context (ds : list decl) (g : grammar) (opts : list (nat * nat)).
Hypothesis DE : declared ds g opts.
Hypothesis W : wf_grammar g.

Lemma wild_name i n : at_name g i n -> n <> "" -> wild g i = is_wild ds n.
Proof.
  intros Hi Hn. unfold is_wild. pose proof (de_wild _ _ _ DE) as D. apply Bool.eq_iff_eq_true. rewrite wild_iff. destruct (g_wild g) as [w|], (wildcard_of ds) as [x|]; try contradiction; cbn in D.
  - rewrite String.eqb_eq. split.
    + injection 1 as ->. apply at_gname in Hi, D. congruence.
    + intros ->. f_equal. eapply (de_uniq _ _ _ DE); eauto.
  - split; discriminate.
Qed.
Lemma own_name i n : at_name g i n -> upper n \/ lower n -> own_type g i = own_of ds n.
Proof.
  intros Hi Hn. assert (n <> "") by (destruct Hn; [now apply upper_nonempty|now apply lower_nonempty]). unfold own_type, own_of. rewrite (wild_name _ _ Hi) by auto.
  now rewrite (de_type _ _ _ DE _ _ Hi Hn), (de_dflt _ _ _ DE).
Qed.
Lemma dtype_name i n : at_name g i n -> upper n \/ lower n -> dtype g i = name_type ds n.
Proof.
  intros Hi Hn. assert (Hne : n <> "") by (destruct Hn; [now apply upper_nonempty|now apply lower_nonempty]). unfold dtype, name_type. rewrite (wild_name _ _ Hi) by auto.
  destruct (is_wild ds n); auto. destruct (sym_decl _ _ _ DE _ _ Hi Hne) as (_ & _ & E). destruct (sy_kind (gsym g i)) as [| |ms] eqn:Ek; cbn in E; rewrite <- E.
  - now apply own_name.
  - now apply own_name.
  - destruct ms as [|c ms]; cbn; [now apply own_name|]. assert (HK : kind_at g i = Some (KMulti (c :: ms))) by (rewrite (at_kind g _ _ Hi); congruence).
    rewrite (own_name c (gname g c)); [now rewrite (de_dflt _ _ _ DE)| |left; eapply de_multi; eauto; now left]. apply gname_at. destruct (wg_multi g W _ _ c HK) as (L & _); auto. now left.
Qed.
Lemma raw_unit n : raw_type ds n = Some TyUnit -> extra_token_of ds = Some TyUnit \/ type_of ds n = Some TyUnit.
Proof.
  unfold raw_type. destruct (extra_token_of ds) as [et|]; auto. destruct (class_of ds n); auto. destruct (is_terminal_ident n); auto. destruct (type_of ds n) as [dt|]; [discriminate|]. injection 1 as ->. auto.
Qed.

Hypothesis FU : forall n c, fallback_of ds n = Some c -> upper n.
Theorem types_sane : types_ok ds -> type_sane g.
Proof.
  intros T. constructor.
  - intros i s c Hs Hf Hc. destruct (wg_fb g W _ _ _ Hs Hf) as (_ & Lc & _). pose proof (de_fbname _ _ _ DE _ _ _ Hs Hf) as Uc.
    destruct (string_dec (sy_name s) "") as [E|Hne]; [destruct (de_anon _ _ _ DE _ _ Hs E) as (_ & Hf' & _); congruence|].
    destruct (de_sym _ _ _ DE _ _ Hs Hne) as (_ & E2 & _). rewrite Hf in E2. cbn in E2. symmetry in E2. assert (Ai : at_name g i (sy_name s)) by (exists s; auto).
    rewrite (dtype_name i (sy_name s) Ai) by (left; eapply FU; eauto). apply (to_fb ds T _ _ E2). rewrite <- (dtype_name c); auto. now apply gname_at.
  - intros w Y ms Hw HK Hin _. pose proof (de_wild _ _ _ DE) as D. rewrite Hw in D. destruct (wildcard_of ds) as [x|] eqn:Ex; [|destruct D]. cbn in D.
    assert (LY : Y < List.length (g_syms g)) by (unfold kind_at in HK; apply nth_error_Some; destruct (nth_error (g_syms g) Y); [discriminate|discriminate HK]).
    pose proof (gname_at g Y LY) as AY. destruct (string_dec (gname g Y) "") as [E|Hne].
    + destruct AY as (s & Hs & Es). rewrite E in Es. destruct (de_anon _ _ _ DE _ _ Hs Es) as (_ & _ & _ & d & [[ns o] al] & Hd & He & HE). destruct ns as [|n1 [|n2 ns]]; [destruct HE| |].
      * destruct HE as [Hn HE]. exfalso. destruct o.
        { destruct HE as (Z & HZ & _). destruct (de_opts _ _ _ DE _ _ HZ) as (_ & k & Hk). apply at_gname in Hk. rewrite E in Hk. discriminate. }
        { apply at_gname in HE. rewrite E in HE. subst n1. destruct Hn as [Hn|Hn]; discriminate. }
      * destruct HE as (_ & _ & ms' & HX' & HF). rewrite HK in HX'. injection HX' as <-. destruct (forall2_in_l _ _ _ HF _ Hin) as (n & Hn & Hmn). apply at_gname in Hmn. apply at_gname in D.
        apply (to_alt ds T x d (n1 :: n2 :: ns) o al); auto; [simpl; lia|]. rewrite <- D, Hmn. exact Hn.
    + destruct (sym_decl _ _ _ DE _ _ AY Hne) as (_ & _ & E). apply kind_at_gsym in HK. rewrite HK in E. cbn in E. apply (to_class ds T x (gname g Y) (map (gname g) ms)); auto. apply in_map_iff. exists w. split; auto. now apply at_gname.
  - destruct (de_start _ _ _ DE) as (n & Hn & HS & L). destruct (to_start ds T) as [H|(H1 & H2 & H3)].
    + left. rewrite (dtype_name _ n); auto.
    + right. intros i Li Hd.
      assert (HO : forall j, j < List.length (g_syms g) -> own_type g j <> Some TyUnit).
      { intros j Lj. unfold own_type. destruct (wild g j); [discriminate|]. rewrite (de_dflt _ _ _ DE).
        assert (HT : sy_type (gsym g j) <> Some TyUnit).
        { pose proof (gname_at g j Lj) as Aj. destruct (string_dec (gname g j) "") as [E|Hne].
          - rewrite E in Aj. rewrite (de_type_anon _ _ _ DE _ Aj). discriminate.
          - assert (Hid : (upper (gname g j) \/ lower (gname g j)) \/ In j (map snd opts) \/ sy_type (gsym g j) = None).
            { destruct Aj as (s & Hs & Es). rewrite <- Es in Hne. destruct (de_named _ _ _ DE _ _ Hs Hne) as [(-> & E & K)|[(U & _)|[(Lw & _)|[((k & E) & _)|(-> & E & _)]]]]; rewrite <- Es; auto.
              - right. right. now apply (de_special _ _ _ DE).
              - right. left. apply (de_opt3 _ _ _ DE j k). exists s. auto.
              - right. right. now apply (de_special _ _ _ DE). }
            destruct Hid as [Hid|[Hid|Hid]].
            + rewrite (de_type _ _ _ DE _ _ Aj Hid). intros Hr. apply raw_unit in Hr as [Hr|Hr]; [contradiction|eapply H3; eauto].
            + apply in_map_iff in Hid as ([Y Z] & E & Hin). cbn in E. subst Z. rewrite (de_type_opt _ _ _ DE _ _ Hin). discriminate.
            + rewrite Hid. discriminate. }
        destruct (sy_type (gsym g j)); cbn; auto. }
      unfold dtype in Hd. destruct (wild g i); [discriminate|]. destruct (sy_kind (gsym g i)) as [| |[|c ms]] eqn:Ek.
      * now apply (HO i Li).
      * now apply (HO i Li).
      * now apply (HO i Li).
      * assert (Lc : c < List.length (g_syms g)).
        { assert (HK : kind_at g i = Some (KMulti (c :: ms))) by (rewrite gsym_kind_at by auto; congruence). destruct (wg_multi g W _ _ c HK) as (Lc & _); auto. now left. }
        pose proof (HO c Lc) as Hc. rewrite (de_dflt _ _ _ DE) in Hd. destruct (own_type g c); cbn in Hd; congruence.
Qed.

Theorem declared_auto : auto_one g.
Proof.
  intros ru Hru HC. destruct (de_rules _ _ _ DE) as (rs & HR & HF). rewrite HR in Hru. apply in_app_iff in Hru as [Hru|Hru].
  - destruct (forall2_in_r _ _ _ HF _ Hru) as (d & Hd & RM). pose proof (rm_code _ _ _ _ RM) as Hc. destruct (d_code d); [destruct Hc as [Hc _]; destruct HC; congruence|].
    destruct Hc as [(Hc & _)|(Hc & _ & _ & HB & HL)]; [destruct HC; congruence|]. rewrite <- HL. clear -HB. induction (r_rhs ru) as [|[Y al] l IH]; cbn in *; auto. injection HB as -> HB.
    destruct (has_type g Y); cbn; auto.
  - apply in_flat_map in Hru as ([Y Z] & _ & Hr). destruct Hr as [<-|[<-|[]]]; cbn in *; auto. destruct HC; discriminate.
Qed.
End Types.

(** ** Names with a precedence or a fallback are token names *)
Lemma listed_in n l : listed n l = true -> In n l.
Proof. unfold listed. rewrite existsb_exists. intros (x & Hx & E). apply String.eqb_eq in E. now subst. Qed.
Lemma assoc_in ds : forall k n q, assoc_from k ds n = Some q -> exists a ids, In (DAssoc a ids) ds /\ In n ids.
Proof.
  induction ds as [|d ds IH]; intros k n q H; [discriminate|]. destruct d; cbn in H; try (destruct (IH _ _ _ H) as (a & ids' & H1 & H2); exists a, ids'; simpl; auto; fail).
  destruct (listed n ids) eqn:E; [|destruct (IH _ _ _ H) as (a0 & ids' & H1 & H2); exists a0, ids'; simpl; auto]. apply listed_in in E. exists a, ids. simpl; auto.
Qed.
Theorem assoc_upper fuel ord ds b : build fuel ord ds = GOk b -> forall n p, assoc_of ds n = Some p -> upper n.
Proof.
  intros H n q Hn. apply build_inv in H as (f & Hf & _). unfold new_from_decls in Hf. apply gbind_ok in Hf as (f0 & Hd & _). apply assoc_in in Hn as (a & ids & Hin & Hids).
  destruct (gfold_each _ _ _ _ Hd _ Hin) as (s1 & s2 & H1). cbn [parse_one_decl] in H1. destruct (gfold_each _ _ _ _ H1 _ Hids) as (s3 & s4 & H2). cbn beta in H2.
  destruct (is_terminal_ident n) eqn:U; [exact U|discriminate].
Qed.
Theorem fallback_upper fuel ord ds b : build fuel ord ds = GOk b -> forall n c, fallback_of ds n = Some c -> upper n.
Proof.
  intros H n q Hn. apply build_inv in H as (f & Hf & _). unfold new_from_decls in Hf. apply gbind_ok in Hf as (f0 & Hd & _). apply first_of_in in Hn as (d & Hin & E). destruct d; try discriminate.
  destruct (listed n ids) eqn:El; [|discriminate]. apply listed_in in El.
  destruct (gfold_each _ _ _ _ Hd _ Hin) as (s1 & s2 & H1). cbn [parse_one_decl] in H1. apply gbind_ok in H1 as ([syms f1] & H1 & _). destruct (gfold_each _ _ _ _ H1 _ El) as ([s3 f3] & s4 & H2). cbn beta in H2.
  destruct (is_terminal_ident n) eqn:U; [exact U|discriminate].
Qed.

(** ** The start symbol has rules *)
Lemma lr0_start_rules g : forall gamma r d, lr0 g gamma r d -> rules_of g (g_start g) <> [].
Proof.
  induction 1 as [r ru Hr Hl| |]; auto. intros E. assert (Hin : In r (rules_of g (g_start g))) by (apply in_rules_of; eauto). rewrite E in Hin. destruct Hin.
Qed.
Lemma lr1_start_rules g : forall gamma r d b, lr1 g gamma r d b -> rules_of g (g_start g) <> [].
Proof.
  induction 1 as [r ru Hr Hl| | |]; auto; [|eapply lr0_start_rules; eauto]. intros E. assert (Hin : In r (rules_of g (g_start g))) by (apply in_rules_of; eauto). rewrite E in Hin. destruct Hin.
Qed.
Theorem every_rule_used fuel ord ds b : hash_order ord -> build fuel ord ds = GOk b -> forall r, r < List.length (g_rules (bt_grammar b)) ->
  exists s la, s < List.length (p_states (bt_auto b)) /\ In (mkAct la (Reduce r)) (acts (bt_acts b) s) /\ look (bt_auto b) s (r, List.length (r_rhs (grule (bt_grammar b) r))) la.
Proof.
  intros Ho H r Hr. pose proof (build_wf _ _ _ _ Ho H) as W. pose proof (build_aut _ _ _ _ Ho H) as A. apply build_inv in H as (f & _ & R).
  destruct (find_actions_spec _ W _ A _ (rn_acts _ _ _ _ R)) as (_ & _ & HS & HR). destruct (HR r Hr) as (s & la & Ls & Hin). exists s, la. splits; auto.
  destruct (HS s Ls) as [SE _]. destruct (se_src _ _ _ _ SE) as (l0 & _ & HF & Hl0). destruct (forall2_in_r _ _ _ HF _ Hin) as ([la0 d0] & H0 & HA). apply Hl0 in H0.
  enough (E : la0 = la /\ d0 = Reduce r). { destruct E as [-> ->]. inversion H0; subst. auto. }
  clear -HA. destruct HA as [HA1 HA2]. cbn in HA1, HA2. split; auto. now inversion HA2.
Qed.
Theorem start_rules fuel ord ds b : hash_order ord -> build fuel ord ds = GOk b -> rules_of (bt_grammar b) (g_start (bt_grammar b)) <> [].
Proof.
  intros Ho H. destruct (build_declared _ _ _ _ Ho H) as (opts & DE). destruct (every_rule_used _ _ _ _ Ho H 0) as (s & la & Ls & _ & HL).
  - destruct (de_rules _ _ _ DE) as (rs & HR & HF). rewrite HR. assert (Hne : rules_in ds <> []).
    { destruct (de_start _ _ _ DE) as (n & Hn & _). apply build_inv in H as (f & Hf & R). pose proof (new_from_decls_spec _ _ _ Hf) as D. pose proof (dc_rules f D) as HX.
      intros E. rewrite E in HF. inversion HF; subst. cbn in HR. apply HX.
      unfold new_from_decls in Hf. apply gbind_ok in Hf as (f0 & Hd & Hf). pose proof (decls_DI _ _ _ Hd) as DD. apply gbind_ok in Hf as ([i f1] & Hs & Hf).
      destruct (f_rules f1) eqn:Ef; [discriminate|]. injection Hf as <-. exfalso. pose proof (di_rules _ _ DD) as HD. rewrite E in HD. inversion HD as [HD1|].
      assert (f_rules f1 = f_rules f0); [|congruence]. unfold symbol_new in Hs. destruct (if ("{default}" =? "")%string then None else position _ _); cbn in Hs; injection Hs as <- <-; reflexivity. }
    destruct (rules_in ds); [contradiction|]. inversion HF; subst. cbn. lia.
  - apply (lalr_exact _ _ (build_aut _ _ _ _ Ho H)) in HL as (gamma & _ & HL); auto. eapply lr1_start_rules; eauto.
Qed.

(** ** The stack limit plays no role in the tables *)
Lemma pipe_unlimited g p p3 p4 t : Pipe g p p3 p4 t -> Pipe g p p3 p4 (unlimited t).
Proof.
  intros [P1 P2 P3 P4 P5 P6 P7 P8 (k & m & sy & dt & G & H)]. constructor; auto. exists k, m, sy, dt. split; auto. destruct G. constructor; assumption.
Qed.
