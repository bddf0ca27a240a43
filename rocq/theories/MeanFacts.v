(** Trees and their values, in terms of the declarations. *)
From Verif Require Import Base Syntax BaseFacts FrontEnd First States Actions Tables Runtime User Spec WfGrammar FirstFacts PipeFacts FrontFacts DeclSpec DeclFacts GramFacts LangFacts MeanSpec
  SoundFacts SafeFacts AbsFacts TypeFacts.
Open Scope string_scope. Open Scope nat_scope. Open Scope list_scope.

Lemma match_args_vals {V} rt (vals : list (nat * V)) args : match_args rt vals = Some args ->
  args = map snd (filter fst (combine (map (fun x => snd (fst x)) rt) (map snd vals))).
Proof.
  revert vals args. induction rt as [|[[Y al] dt] rt IH]; intros [|[d v] vals] args H; cbn in *; try discriminate; [now injection H as <-|].
  destruct al; cbn; [|auto]. destruct (d =? dt); [|discriminate]. destruct (match_args rt vals) as [a|] eqn:E; [|discriminate]. injection H as <-. f_equal. auto.
Qed.
Lemma chosen_flags {V} p es (vs : list V) : chosen p es vs = map snd (filter fst (combine (map p es) vs)).
Proof.
  unfold chosen. revert vs. induction es as [|e es IH]; intros [|v vs]; cbn; auto. destruct (p e); cbn; now rewrite IH.
Qed.

Section Mean.
Context (ds : list decl) (g : grammar) (opts : list (nat * nat)) (DE : declared ds g opts).
Context (p p3 p4 : pst) (t : tables) (P : Pipe g p p3 p4 t).
Let W := pp_wf _ _ _ _ _ P.
Context {V X E : Type} (sm : sem V X E).
Notation h := (user_hooks t sm).
Notation n := (List.length (g_syms g)).

Lemma elem_has_type e Y : elem_sym g opts e Y -> has_type g Y = opt_is_some (elem_type ds e).
Proof.
  unfold has_type. destruct e as [[ns o] al]. destruct ns as [|a [|a2 ns]]; intros H; [destruct H| |].
  - destruct H as [Ha H]. cbn. destruct o.
    + destruct H as (Z & HZ & HZa). rewrite (de_type_opt _ _ _ DE _ _ HZ). reflexivity.
    + now rewrite (de_type _ _ _ DE _ _ H).
  - destruct H as (_ & H & _). cbn. now rewrite (de_type_anon _ _ _ DE _ H).
Qed.
Lemma lower_raw a : lower a -> raw_type ds a = type_of ds a.
Proof.
  intros L. unfold raw_type. destruct (extra_token_of ds); auto. destruct (class_of ds a); auto. destruct (is_terminal_ident a) eqn:U; auto. exfalso. eapply upper_not_lowish; [exact U|now left].
Qed.
Lemma lhs_has_type d ru : rule_made g opts d ru -> has_type g (r_lhs ru) = opt_is_some (type_of ds (d_lhs d)).
Proof. intros RM. unfold has_type. rewrite (de_type _ _ _ DE _ _ (rm_lhs _ _ _ _ RM)) by (right; apply RM). now rewrite lower_raw by apply RM. Qed.
Lemma rhs_flags d ru : rule_made g opts d ru -> map (fun q => has_type g (fst q)) (r_rhs ru) = map (fun e => opt_is_some (elem_type ds e)) (d_rhs d).
Proof.
  intros RM. pose proof (rm_rhs _ _ _ _ RM) as HF. rewrite <- (map_map fst (has_type g)). induction HF as [|e Y es Ys He HF IH]; cbn; auto. rewrite IH. f_equal. now apply elem_has_type.
Qed.

(** The code run for a declared rule *)
Lemma made_code d ru vs x : rule_made g opts d ru -> run_code sm (r_code ru) (map snd (filter fst (combine (map snd (r_rhs ru)) vs))) x = result ds sm d vs x.
Proof.
  intros RM. unfold result. pose proof (rm_code _ _ _ _ RM) as HC. destruct (d_code d) as [c|].
  - destruct HC as [-> ->]. cbn. now rewrite chosen_flags.
  - pose proof (lhs_has_type _ _ RM) as HL. destruct HC as [(-> & HT & HA)|(-> & HT & HA & HB & HX)].
    + rewrite HT in HL. destruct (type_of ds (d_lhs d)); [discriminate|]. reflexivity.
    + rewrite HT in HL. destruct (type_of ds (d_lhs d)); [|discriminate]. rewrite chosen_flags, <- (rhs_flags _ _ RM), <- HB. reflexivity.
Qed.
Lemma reduce_code r ru vals x x' m : nth_error (g_rules g) r = Some ru -> h_reduce h r vals x = Some (x', inl m) ->
  run_code sm (r_code ru) (map snd (filter fst (combine (map snd (r_rhs ru)) (map snd vals)))) x = Some (x', inl (snd m)).
Proof.
  intros Hr H. assert (Lr : r < List.length (g_rules g)) by (apply nth_error_Some; congruence). destruct (rule_entry g p p3 p4 t P r Lr) as (rr & Hrr & HL & Hrhs & Hcode & Hdt & Hdts).
  cbn in H. unfold rule_reduce in H. rewrite (nth_error_nth _ _ _ Hrr) in H. destruct (match_args (rr_rhs rr) vals) as [args|] eqn:Em; [|discriminate].
  apply match_args_vals in Em. assert (Eg : grule g r = ru) by (unfold grule; now rewrite (nth_error_nth _ _ _ Hr)). rewrite Eg in *. rewrite <- Hrhs, map_map. cbn. rewrite <- Em, <- Hcode.
  destruct (run_code sm (rr_code rr) args x) as [[x1 [v|e]]|]; try discriminate. now injection H as <- <-.
Qed.

Context (mt : nat -> nat -> Prop) (tk : ident -> ident -> Prop) (LK : linked g mt tk).
Let LD := lk_down _ _ _ LK.
Let LU := lk_up _ _ _ LK.

Notation toks := (map (fun q : nat * (nat * V) => (gname g (fst q), snd (snd q)))).
Notation tok_ok := (toks_ok g).

(** The two rules of an optional symbol *)
Lemma opt_rule r ru : nth_error (g_rules g) r = Some ru -> (exists d, In d (rules_in ds) /\ rule_made g opts d ru) \/
  exists Y Z, In (Y, Z) opts /\ In ru (opt_made g (Y, Z)).
Proof.
  intros H. apply nth_error_In in H. destruct (de_rules _ _ _ DE) as (rs & HR & HF). rewrite HR in H. apply in_app_iff in H as [H|H].
  - left. destruct (forall2_in_r _ _ _ HF _ H) as (d & Hd & RM). eauto.
  - right. apply in_flat_map in H as ([Y Z] & Hin & Hr). eauto.
Qed.

Theorem tree_means :
  (forall Y (tr : tree (nat * V)), derives g mt Y tr -> tok_ok (yield tr) -> forall x x' m, eval h tr x = EvOk x' m ->
     (forall a, at_name g Y a -> upper a \/ lower a -> means ds sm tk a (toks (yield tr)) x x' (snd m)) /\
     (forall e, elem_sym g opts e Y -> means_elem ds sm tk e (toks (yield tr)) x x' (snd m))) /\
  (forall Ys (trs : list (tree (nat * V))), derives_all g mt Ys trs -> tok_ok (flat_map yield trs) -> forall x x' ms, eval_list h trs x = EvOk x' ms ->
     List.length ms = List.length Ys /\
     (forall es, Forall2 (elem_sym g opts) es Ys -> means_all ds sm tk es (toks (flat_map yield trs)) x x' (map snd ms)) /\
     forall Y a, Ys = [Y] -> at_name g Y a -> upper a \/ lower a -> exists m, ms = [m] /\ means ds sm tk a (toks (flat_map yield trs)) x x' (snd m)).
Proof.
  apply derives_both.
  - intros a m Y HM HO x x' m' Hev. cbn in Hev. injection Hev as <- <-. destruct (HO a m (or_introl eq_refl)) as [H1 H2]. destruct (LD a Y (conj H1 H2) HM) as (B & HB & Ht). cbn [yield map fst snd].
    assert (HS : forall k, at_name g Y k -> upper k \/ lower k -> means ds sm tk k [(gname g a, snd m)] x x (snd m)).
    { intros k HY [U|L]; [|exfalso; eapply (member_not_nonterm g B Y HB); eapply lower_kind; eauto].
      apply me_tok with (b := gname g B); auto. eapply stands_down; eauto. }
    split; auto. intros [[ns o] al] He. destruct ns as [|k [|k2 ns]]; [destruct He| |].
    + destruct He as [Hk He]. destruct o; [|constructor; auto]. exfalso. destruct He as (Z & HZ & _). destruct (de_opts _ _ _ DE _ _ HZ) as (_ & j & Hj). now apply (member_not_nonterm g B Y HB), (opt_nonterm ds g opts DE j).
    + destruct He as (HU & HY & ms & HK & HF). apply me_alt with (b := gname g B); [simpl; lia|auto|].
      destruct HB as [[-> Hb]|(ms' & Hk & Hin)]; [unfold is_term in Hb; congruence|]. rewrite HK in Hk. injection Hk as <-. destruct (forall2_in_l _ _ _ HF _ Hin) as (y & Hy & Hb). now rewrite (at_gname _ _ _ Hb).
  - intros r ru ts Hr HD IH HO x x' m Hev. rewrite eval_node in Hev. destruct (eval_list h ts x) as [x1 vs|? ?|] eqn:El; try discriminate. unfold finish in Hev.
    destruct (h_reduce h r vs x1) as [[x2 [v|e]]|] eqn:Eh; try discriminate. injection Hev as -> ->. destruct (IH HO x x1 vs El) as (HL & IH1 & IH2). cbn [yield] in *.
    pose proof (reduce_code r ru vs x1 x' m Hr Eh) as HC.
    destruct (opt_rule r ru Hr) as [(d & Hd & RM)|(Y & Z & HY & HR)].
    + pose proof (rm_lhs _ _ _ _ RM) as HLn. pose proof (rm_low _ _ _ _ RM) as Low.
      assert (HS : forall k, at_name g (r_lhs ru) k -> upper k \/ lower k -> means ds sm tk k (toks (flat_map yield ts)) x x' (snd m)).
      { intros k Hk _. rewrite <- (at_gname _ _ _ Hk), (at_gname _ _ _ HLn). econstructor 2; [exact Hd|apply IH1, RM|]. rewrite <- (made_code d ru); auto. }
      split; auto. intros [[ns o] al] He. destruct ns as [|k [|k2 ns]]; [destruct He| |].
      * destruct o.
        { exfalso. destruct He as (_ & Y & HY & _). destruct (de_opts _ _ _ DE _ _ HY) as (_ & j & Hj). apply (opt_not_id j (d_lhs d)); auto. rewrite <- (at_gname _ _ _ Hj). symmetry. now apply at_gname. }
        destruct He as [Hk He]. constructor. now apply HS.
      * exfalso. destruct He as (_ & Ha & _). apply at_gname in Ha, HLn. rewrite Ha in HLn. rewrite <- HLn in Low. discriminate.
    + destruct (de_opts _ _ _ DE _ _ HY) as ((y & Ay & Hy) & j & Hj). assert (EZ : r_lhs ru = Z) by (destruct HR as [<-|[<-|[]]]; reflexivity). rewrite EZ in *. split.
      * intros k Hk Hid. exfalso. apply (opt_not_id j k Hid). rewrite <- (at_gname _ _ _ Hj). symmetry. now apply at_gname.
      * intros [[ns o] al] He. destruct ns as [|k [|k2 ns]]; [destruct He| |].
        { destruct He as [Hk He]. destruct o; [|exfalso; apply (opt_not_id j k Hk); rewrite <- (at_gname _ _ _ Hj); symmetry; now apply at_gname].
          destruct He as (Y' & HY' & Hk'). assert (Y' = Y) by (eapply opt_uniq; eauto). subst Y'. destruct HR as [<-|[<-|[]]]; cbn [r_rhs r_code r_lhs map fst snd] in *.
          - inversion HD; subst. cbn in *. injection El as <- <-. injection HC as <- <-. constructor.
          - destruct (IH2 Y k eq_refl Hk' Hk) as (m1 & -> & Hm). cbn in HC. injection HC as <- <-. constructor. exact Hm. }
        { exfalso. destruct He as (_ & Ha & _). apply at_gname in Ha, Hj. rewrite Ha in Hj. discriminate. }
  - intros _ x x' ms Hev. cbn in Hev. injection Hev as <- <-. splits; auto; [|discriminate]. intros es HF. inversion HF; subst. constructor.
  - intros Y tr Ys ts Ht IHt Hts IHts HO x x' ms Hev. cbn in HO. apply toks_app in HO as [HO1 HO2]. cbn [eval_list] in Hev.
    destruct (eval h tr x) as [x1 v|? ?|] eqn:E1; try discriminate. destruct (eval_list h ts x1) as [x2 vs|? ?|] eqn:E2; try discriminate. injection Hev as <- <-.
    destruct (IHt HO1 x x1 v E1) as [IH1 IH2], (IHts HO2 x1 x2 vs E2) as (HL & IH3 & IH4). splits; [cbn; now rewrite HL| |].
    + intros es HF. inversion HF as [|e Y' es' Ys' He HF']; subst. cbn [flat_map map]. rewrite map_app. econstructor; eauto.
    + intros Z a Ez Ha Hid. injection Ez as -> ->. inversion Hts; subst. cbn in E2. injection E2 as <- <-. exists v. split; auto. cbn. rewrite app_nil_r. auto.
Qed.

(** ** And back *)
Hypothesis TS : type_sane g.
Hypothesis A1 : auto_one g.
Notation yes := (fun (_ : ty) (_ : V) => true).
Notation st := (stacked g t yes).
Notation tv := (tokval g t yes).

Lemma code_yes : code_ok g t sm yes.
Proof. constructor; intros; unfold vfits; now destruct (dtype g _). Qed.
Hypothesis MTK : forall a Y, mt a Y -> tok_match g a Y.

Lemma reduce_back r ru vals x x' v : nth_error (g_rules g) r = Some ru -> Forall2 st (map fst (r_rhs ru)) vals ->
  run_code sm (r_code ru) (map snd (filter fst (combine (map snd (r_rhs ru)) (map snd vals)))) x = Some (x', inl v) ->
  exists m, h_reduce h r vals x = Some (x', inl m) /\ snd m = v /\ st (r_lhs ru) m.
Proof.
  intros Hr HF HC. assert (Lr : r < List.length (g_rules g)) by (apply nth_error_Some; congruence). assert (Eg : grule g r = ru) by (unfold grule; now rewrite (nth_error_nth _ _ _ Hr)).
  destruct (val_red g p p3 p4 t P A1 sm yes code_yes r vals x Lr) as (args & x1 & ve & Ea & Hf & Ec & Er & HK); [now rewrite Eg|]. rewrite Eg in *.
  assert (Eargs : args = map snd (filter fst (combine (map snd (r_rhs ru)) (map snd vals)))).
  { apply match_args_vals in Ea. destruct (rule_entry g p p3 p4 t P r Lr) as (rr & Hrr & HL & Hrhs & _). rewrite (nth_error_nth _ _ _ Hrr) in Ea. rewrite Eg in Hrhs. rewrite <- Hrhs, map_map. exact Ea. }
  rewrite <- Eargs, Ec in HC. injection HC as -> ->. exists (rr_dt (nth r (t_rules t) dummy_rt), v). splits; auto. cbn. unfold rule_reduce. now rewrite Ea, Er, Ec.
Qed.

Theorem means_tree :
  (forall a w x x' v, means ds sm tk a w x x' v -> forall Y ts, at_name g Y a -> toks ts = w -> tok_ok ts -> (forall b m, In (b, m) ts -> tv b m) ->
     exists tr m, derives g mt Y tr /\ yield tr = ts /\ eval h tr x = EvOk x' m /\ snd m = v /\ st Y m) /\
  (forall e w x x' v, means_elem ds sm tk e w x x' v -> forall Y ts, elem_sym g opts e Y -> toks ts = w -> tok_ok ts -> (forall b m, In (b, m) ts -> tv b m) ->
     exists tr m, derives g mt Y tr /\ yield tr = ts /\ eval h tr x = EvOk x' m /\ snd m = v /\ st Y m) /\
  (forall es w x x' vs, means_all ds sm tk es w x x' vs -> forall Ys ts, Forall2 (elem_sym g opts) es Ys -> toks ts = w -> tok_ok ts -> (forall b m, In (b, m) ts -> tv b m) ->
     exists trs ms, derives_all g mt Ys trs /\ flat_map yield trs = ts /\ eval_list h trs x = EvOk x' ms /\ map snd ms = vs /\ Forall2 st Ys ms).
Proof.
  assert (H1 : forall a v ts, toks ts = [(a, v)] -> tok_ok ts -> exists x m, ts = [(x, m)] /\ gname g x = a /\ snd m = v /\ 0 < x < g_nterm g).
  { intros a v ts Hw HO. destruct ts as [|[x m] [|? ?]]; try discriminate. injection Hw as H0 H1. exists x, m. pose proof (HO x m (or_introl eq_refl)). splits; auto; lia. }
  assert (HR : forall d, In d (rules_in ds) -> exists r ru, nth_error (g_rules g) r = Some ru /\ rule_made g opts d ru).
  { intros d Hd. destruct (de_rules _ _ _ DE) as (rs & HRs & HF). destruct (forall2_in_l _ _ _ HF _ Hd) as (ru & Hru & RM). apply In_nth_error in Hru as [r Hr]. exists r, ru. split; auto. rewrite HRs. now apply nth_error_ext. }
  assert (Hin : forall Y Z ru, In (Y, Z) opts -> In ru (opt_made g (Y, Z)) -> exists r, nth_error (g_rules g) r = Some ru).
  { intros Y Z ru HY Hru. destruct (de_rules _ _ _ DE) as (rs & HRs & _). apply In_nth_error. rewrite HRs. apply in_app_iff. right. apply in_flat_map. eauto. }
  apply means_both.
  - intros a v b k x Ht Hs Y ts HY Hw Hok HT. destruct (H1 a v ts Hw Hok) as (c & m & -> & <- & Hv & Hc). destruct (LU c b Hc Ht) as (B & HB & HM). assert (HM' : mt c Y) by (apply HM; eapply stands_up; eauto).
    exists (TTok c m), m. splits; auto; [now constructor|]. eapply val_tok; eauto. apply HT. now left.
  - intros d w vs v x x1 x2 Hd _ IH HC Y ts HY Hw Hok HT. destruct (HR d Hd) as (r & ru & Hr & RM). destruct (IH (map fst (r_rhs ru)) ts) as (us & ms & Hus & Hy & Hev & Hvs & HS); auto; [apply RM|].
    rewrite <- (made_code d ru vs x1 RM), <- Hvs in HC. destruct (reduce_back r ru ms x1 x2 v Hr HS HC) as (m & Hh & Hm & HSm).
    assert (EY : Y = r_lhs ru) by (apply (de_uniq _ _ _ DE Y (r_lhs ru) (d_lhs d)); auto; [apply RM|apply lower_nonempty, (rm_low _ _ _ _ RM)]). subst Y.
    exists (TNode r us), m. splits; auto; [econstructor; eauto|]. rewrite eval_node, Hev. unfold finish. now rewrite Hh.
  - intros k al w x x' v _ IH Y ts [Hk HY] Hw Hok HT. eauto.
  - intros k al x Y ts (Hk & Z & HZ & HZk) Hw Hok HT. destruct ts as [|]; [|discriminate]. destruct (Hin Z Y (mkRule Y [] COptNone None None) HZ) as [r Hr]; [left; reflexivity|].
    destruct (reduce_back r _ [] x x (v_none sm) Hr) as (m & Hh & Hm & HSm); [constructor|reflexivity|].
    exists (TNode r []), m. splits; auto; [apply (d_node g mt r _ [] Hr); constructor|]. rewrite eval_node. cbn [eval_list]. unfold finish. now rewrite Hh.
  - intros k al w x x' v _ IH Y ts (Hk & Z & HZ & HZk) Hw Hok HT. destruct (IH Z ts HZk Hw Hok HT) as (tr & m & Hd & Hy & Hev & Hv & HS).
    destruct (Hin Z Y (mkRule Y [(Z, true)] COptSome None (rhs_sym_prec g Z)) HZ) as [r Hr]; [right; left; reflexivity|].
    destruct (reduce_back r _ [m] x' x' (v_some sm v) Hr) as (m' & Hh & Hm & HSm); [cbn; constructor; auto|cbn; now rewrite Hv|].
    exists (TNode r [tr]), m'. splits; auto.
    + apply (d_node g mt r _ [tr] Hr). cbn. constructor; [auto|constructor].
    + cbn. now rewrite app_nil_r.
    + rewrite eval_node. cbn [eval_list]. rewrite Hev. unfold finish. now rewrite Hh.
  - intros ns o al a v b x Hl Ht Hb Y ts He Hw Hok HT. destruct (H1 a v ts Hw Hok) as (c & m & -> & <- & Hv & Hc). destruct (LU c b Hc Ht) as (B & HB & HM).
    assert (HM' : mt c Y).
    { apply HM. destruct ns as [|n1 [|n2 ns]]; try (simpl in Hl; lia). destruct He as (HU & _ & ms & HK & HF). right. exists ms. split; auto.
      destruct (forall2_in_r _ _ _ HF _ Hb) as (c' & Hc' & Ac). rewrite (de_uniq _ _ _ DE B c' b); auto. rewrite Forall_forall in HU. now apply upper_nonempty, HU. }
    exists (TTok c m), m. splits; auto; [now constructor|]. eapply val_tok; eauto. apply HT. now left.
  - intros x Ys ts HF Hw _ _. inversion HF; subst. destruct ts; [|discriminate]. exists [], []. splits; auto; constructor.
  - intros e es w1 w2 x x1 x2 v vs _ IH1 _ IH2 Ys ts HF Hw Hok HT. inversion HF as [|e' Y es' Ys' He HF']; subst. apply map_eq_app in Hw as (ts1 & ts2 & -> & E1 & E2). apply toks_app in Hok as [O1 O2].
    destruct (IH1 Y ts1 He E1 O1) as (tr & m & Ht & Hy & Hev & Hv & HS); [intros; apply HT, in_app_iff; auto|].
    destruct (IH2 Ys' ts2 HF' E2 O2) as (us & ms & Hus & Hys & Hevs & Hvs & HSs); [intros; apply HT, in_app_iff; auto|].
    exists (tr :: us), (m :: ms). splits; [constructor; auto|cbn; now rewrite Hy, Hys|cbn [eval_list]; now rewrite Hev, Hevs|cbn; now rewrite Hv, Hvs|constructor; auto].
Qed.
End Mean.
