(** Operators bind as declared (C39), and the dangling else (C40). *)
From Verif Require Import Base Syntax BaseFacts FrontEnd First States Actions Tables Runtime User Spec WfGrammar FirstFacts ClosureFacts AutoFacts LalrFacts ActFacts CompFacts LookFacts PipeFacts RunFacts
  SoundFacts SafeFacts AbsFacts HaltFacts CompleteFacts RefFacts FrontFacts BuildFacts DeclSpec DeclFacts GramFacts LangFacts TypeFacts MeanSpec MeanFacts TypeDecl TreeSpec Main Claims2 Claims6 Claims9
  FaultDuel FaultAct FaultBack KeptFacts PrecSpec.
Open Scope string_scope. Open Scope nat_scope. Open Scope list_scope.

(** The tree over the declarations for a tree over the internal grammar; the first [N] rules are
    the declared ones. *)
Fixpoint dec {M} (g : grammar) (N : nat) (t : tree M) : dtree :=
  match t with
  | TTok a _ => LTok (gname g a)
  | TNode r ts => if r <? N then LRule r (map (dec g N) ts) else match ts with [] => LNone | t :: _ => LSome (dec g N t) end
  end.

Section Dec.
Context (ds : list decl) (g : grammar) (opts : list (nat * nat)) (DE : declared ds g opts).
Context (p p3 p4 : pst) (t : tables) (P : Pipe g p p3 p4 t).
Let W := pp_wf _ _ _ _ _ P.
Notation N := (List.length (rules_in ds)).
Notation dec := (dec g N).

Lemma rule_at r ru : nth_error (g_rules g) r = Some ru ->
  (r < N /\ exists d, nth_error (rules_in ds) r = Some d /\ rule_made g opts d ru) \/
  (N <= r /\ exists Y Z, In (Y, Z) opts /\ In ru (opt_made g (Y, Z))).
Proof.
  intros H. destruct (de_rules _ _ _ DE) as (rs & HR & HF). pose proof (forall2_len _ _ _ HF) as HL. rewrite HR in H. destruct (Nat.lt_ge_cases r N) as [L|L].
  - left. split; auto. rewrite nth_error_app1 in H by lia. destruct (nth_error (rules_in ds) r) as [d|] eqn:Ed; [|apply nth_error_None in Ed; lia].
    exists d. split; auto. destruct (forall2_nth_l _ _ _ HF _ _ Ed) as (ru' & Hru' & RM). congruence.
  - right. split; auto. rewrite nth_error_app2 in H by lia. apply nth_error_In in H. apply in_flat_map in H as ([Y Z] & Hin & Hr). eauto.
Qed.
Lemma decl_at r d : nth_error (rules_in ds) r = Some d -> exists ru, nth_error (g_rules g) r = Some ru /\ rule_made g opts d ru.
Proof.
  intros H. destruct (de_rules _ _ _ DE) as (rs & HR & HF). destruct (forall2_nth_l _ _ _ HF _ _ H) as (ru & Hru & RM). exists ru. split; auto. rewrite HR. now apply nth_error_ext.
Qed.

Section Tree.
Context {V X E : Type} (sm : sem V X E).
Notation h := (user_hooks t sm).
Context (mt : nat -> nat -> Prop) (tk : ident -> ident -> Prop) (LK : linked g mt tk).
Let LD := lk_down _ _ _ LK.
Notation toks := (map (fun q : nat * (nat * V) => (gname g (fst q), snd (snd q)))).
Notation tok_ok := (toks_ok g).

Theorem tree_meant :
  (forall Y (tr : tree (nat * V)), derives g mt Y tr -> tok_ok (yield tr) -> forall x x' m, eval h tr x = EvOk x' m ->
     (forall a, at_name g Y a -> upper a \/ lower a -> meant ds sm tk a (toks (yield tr)) x x' (snd m) (dec tr)) /\
     (forall e, elem_sym g opts e Y -> meant_elem ds sm tk e (toks (yield tr)) x x' (snd m) (dec tr))) /\
  (forall Ys (trs : list (tree (nat * V))), derives_all g mt Ys trs -> tok_ok (flat_map yield trs) -> forall x x' ms, eval_list h trs x = EvOk x' ms ->
     List.length ms = List.length Ys /\
     (forall es, Forall2 (elem_sym g opts) es Ys -> meant_all ds sm tk es (toks (flat_map yield trs)) x x' (map snd ms) (map dec trs)) /\
     forall Y a, Ys = [Y] -> at_name g Y a -> upper a \/ lower a -> exists tr m, trs = [tr] /\ ms = [m] /\ meant ds sm tk a (toks (flat_map yield trs)) x x' (snd m) (dec tr)).
Proof.
  apply derives_both.
  - intros a m Y HM HO x x' m' Hev. cbn in Hev. injection Hev as <- <-. destruct (HO a m (or_introl eq_refl)) as [H1 H2]. destruct (LD a Y (conj H1 H2) HM) as (B & HB & Ht). cbn [yield map fst snd Claims15.dec].
    assert (HS : forall k, at_name g Y k -> upper k \/ lower k -> meant ds sm tk k [(gname g a, snd m)] x x (snd m) (LTok (gname g a))).
    { intros k HY [U|L]; [|exfalso; eapply (member_not_nonterm g B Y HB); eapply lower_kind; eauto].
      apply mt_tok with (b := gname g B); auto. eapply stands_down; eauto. }
    split; auto. intros [[ns o] al] He. destruct ns as [|k [|k2 ns]]; [destruct He| |].
    + destruct He as [Hk He]. destruct o; [|constructor; auto]. exfalso. destruct He as (Z & HZ & _). destruct (de_opts _ _ _ DE _ _ HZ) as (_ & j & Hj). now apply (member_not_nonterm g B Y HB), (opt_nonterm ds g opts DE j).
    + destruct He as (HU & HY & ms & HK & HF). apply mt_alt with (b := gname g B); [simpl; lia|auto|].
      destruct HB as [[-> Hb]|(ms' & Hk & Hin)]; [unfold is_term in Hb; congruence|]. rewrite HK in Hk. injection Hk as <-. destruct (forall2_in_l _ _ _ HF _ Hin) as (y & Hy & Hb). now rewrite (at_gname _ _ _ Hb).
  - intros r ru ts Hr HD IH HO x x' m Hev. rewrite eval_node in Hev. destruct (eval_list h ts x) as [x1 vs|? ?|] eqn:El; try discriminate. unfold finish in Hev.
    destruct (h_reduce h r vs x1) as [[x2 [v|e]]|] eqn:Eh; try discriminate. injection Hev as -> ->. destruct (IH HO x x1 vs El) as (HL & IH1 & IH2). cbn [yield] in *.
    pose proof (reduce_code g _ _ _ _ P sm r ru vs x1 x' m Hr Eh) as HC. cbn [Claims15.dec].
    destruct (rule_at r ru Hr) as [(Lr & d & Hd & RM)|(Lr & Y & Z & HY & HR)]; [apply Nat.ltb_lt in Lr|apply Nat.ltb_ge in Lr]; rewrite Lr.
    + pose proof (rm_lhs _ _ _ _ RM) as HLn. pose proof (rm_low _ _ _ _ RM) as Low.
      assert (HS : forall k, at_name g (r_lhs ru) k -> upper k \/ lower k -> meant ds sm tk k (toks (flat_map yield ts)) x x' (snd m) (LRule r (map dec ts))).
      { intros k Hk _. rewrite <- (at_gname _ _ _ Hk), (at_gname _ _ _ HLn). econstructor 2; [exact Hd|apply IH1, RM|]. rewrite <- (made_code ds g opts DE sm d ru); auto. }
      split; auto. intros [[ns o] al] He. destruct ns as [|k [|k2 ns]]; [destruct He| |].
      * destruct o.
        { exfalso. destruct He as (_ & Y & HY & _). destruct (de_opts _ _ _ DE _ _ HY) as (_ & j & Hj). apply (opt_not_id j (d_lhs d)); auto. rewrite <- (at_gname _ _ _ Hj). symmetry. now apply at_gname. }
        destruct He as [Hk He]. constructor. now apply HS.
      * exfalso. destruct He as (_ & Ha & _). apply at_gname in Ha, HLn. rewrite Ha in HLn. rewrite <- HLn in Low. discriminate.
    + destruct (de_opts _ _ _ DE _ _ HY) as ((y & Ay & Hy) & j & Hj). assert (EZ : r_lhs ru = Z) by (destruct HR as [<-|[<-|[]]]; reflexivity). rewrite EZ in *. split.
      * intros k Hk Hid. exfalso. apply (opt_not_id j k Hid). rewrite <- (at_gname _ _ _ Hj). symmetry. now apply at_gname.
      * intros [[ns o] al] He. destruct ns as [|k [|k2 ns]]; [destruct He| |].
        { destruct He as [Hk He]. destruct o; [|exfalso; apply (opt_not_id j k Hk); rewrite <- (at_gname _ _ _ Hj); symmetry; now apply at_gname].
          destruct He as (Y' & HY' & Hk'). assert (Y' = Y) by (eapply opt_uniq; eauto). subst Y'. destruct HR as [<-|[<-|[]]]; cbn [r_rhs r_code r_lhs map fst snd] in *.
          - inversion HD; subst. cbn in *. injection El as <- <-. injection HC as <- <-. constructor.
          - destruct (IH2 Y k eq_refl Hk' Hk) as (tr1 & m1 & -> & -> & Hm). cbn in HC. injection HC as <- <-. constructor. exact Hm. }
        { exfalso. destruct He as (_ & Ha & _). apply at_gname in Ha, Hj. rewrite Ha in Hj. discriminate. }
  - intros _ x x' ms Hev. cbn in Hev. injection Hev as <- <-. splits; auto; [|discriminate]. intros es HF. inversion HF; subst. constructor.
  - intros Y tr Ys ts Ht IHt Hts IHts HO x x' ms Hev. cbn in HO. apply toks_app in HO as [HO1 HO2]. cbn [eval_list] in Hev.
    destruct (eval h tr x) as [x1 v|? ?|] eqn:E1; try discriminate. destruct (eval_list h ts x1) as [x2 vs|? ?|] eqn:E2; try discriminate. injection Hev as <- <-.
    destruct (IHt HO1 x x1 v E1) as [IH1 IH2], (IHts HO2 x1 x2 vs E2) as (HL & IH3 & IH4). splits; [cbn; now rewrite HL| |].
    + intros es HF. inversion HF as [|e Y' es' Ys' He HF']; subst. cbn [flat_map map]. rewrite map_app. econstructor; eauto.
    + intros Z a Ez Ha Hid. injection Ez as -> ->. inversion Hts; subst. cbn in E2. injection E2 as <- <-. exists tr, v. splits; auto. cbn. rewrite app_nil_r. now apply IH1.
Qed.
End Tree.

Context {M : Type} (mt : nat -> nat -> Prop).
Notation derives := (derives g mt (M := M)).

Lemma opt_single r ru (ts : list (tree M)) : nth_error (g_rules g) r = Some ru -> N <= r -> derives_all g mt (map fst (r_rhs ru)) ts -> ts = [] \/ exists u, ts = [u] /\ exists Y, derives Y u.
Proof.
  intros Hr L HD. destruct (rule_at r ru Hr) as [(L' & _)|(_ & Y & Z & _ & [<-|[<-|[]]])]; [lia| |]; cbn in HD.
  - left. now inversion HD.
  - right. inversion HD as [|? u ? us Hu HD']; subst. inversion HD'; subst. eauto.
Qed.

Lemma dec_leaves :
  (forall Y (tr : tree M), derives Y tr -> leaves (dec tr) = map (fun q => gname g (fst q)) (yield tr)) /\
  (forall Ys (ts : list (tree M)), derives_all g mt Ys ts -> flat_map leaves (map dec ts) = map (fun q => gname g (fst q)) (flat_map yield ts)).
Proof.
  apply derives_both.
  - reflexivity.
  - intros r ru ts Hr HD IH. cbn [Claims15.dec yield]. destruct (Nat.ltb_spec r N) as [L|L]; [exact IH|].
    destruct (opt_single r ru ts Hr L HD) as [-> |(u & -> & _)]; cbn; auto. cbn in IH. rewrite !app_nil_r in *. exact IH.
  - reflexivity.
  - intros Y tr Ys ts _ IH _ IHs. cbn. now rewrite IH, IHs, map_app.
Qed.

(** [b] is the first of the tokens [w], if there is one. *)
Definition names_first (b : nat) (w : list ident) : Prop := match w with [] => True | a :: _ => gname g b = a end.
Lemma names_at Ys (ts : list (tree M)) b w : derives_all g mt Ys ts -> names_first b w -> names_first (la_at (flat_map yield ts) b) (flat_map leaves (map dec ts) ++ w).
Proof. intros HD H. rewrite (proj2 dec_leaves _ _ HD). destruct (flat_map yield ts) as [|[a m] l]; cbn; auto. Qed.

Lemma derives_all_app Ys (ts us : list (tree M)) : derives_all g mt Ys (ts ++ us) -> exists Ys1 Ys2, Ys = Ys1 ++ Ys2 /\ derives_all g mt Ys1 ts /\ derives_all g mt Ys2 us.
Proof.
  revert Ys. induction ts as [|t0 ts IH]; intros Ys H; cbn in H.
  - exists [], Ys. splits; auto. constructor.
  - inversion H as [|Y ? Ys' ? H1 H2]; subst. destruct (IH _ H2) as (Y1 & Y2 & -> & D1 & D2). exists (Y :: Y1), Y2. splits; auto. now constructor.
Qed.

Lemma occ_down u w T w' : occurs u w T w' -> forall Y (tr : tree M) b', derives Y tr -> T = dec tr -> names_first b' w' ->
  exists tr' b Y', u = dec tr' /\ gocc tr' b tr b' /\ names_first b w /\ derives Y' tr'.
Proof.
  induction 1 as [|i l c r w' H IH|c w' H IH]; intros Y tr b' HD ET Hb.
  - exists tr, b', Y. splits; auto. constructor.
  - destruct tr as [a m|r0 ts]; cbn [Claims15.dec] in ET; [discriminate|]. destruct (r0 <? N) eqn:Lr; [|destruct ts; discriminate].
    injection ET as -> ET. symmetry in ET. apply map_eq_app in ET as (l1 & l2 & -> & <- & ET). destruct l2 as [|c' r']; [discriminate|]. cbn in ET. injection ET as <- <-.
    inversion HD as [|? ru ? Hru HDs]; subst. destruct (derives_all_app _ _ _ HDs) as (Y1 & Y2 & EY & D1 & D2). inversion D2 as [|Yc ? Ys' ? Dc Dr]; subst.
    destruct (IH _ c' (la_at (flat_map yield r') b') Dc eq_refl) as (tr' & b & Y' & -> & G & Hn & D'); [eapply names_at; eauto|]. exists tr', b, Y'. splits; auto. now constructor.
  - destruct tr as [a m|r0 ts]; cbn [Claims15.dec] in ET; [discriminate|]. destruct (Nat.ltb_spec r0 N) as [L|L]; [discriminate|]. inversion HD as [|? ru ? Hru HDs]; subst.
    destruct (opt_single _ _ _ Hru L HDs) as [E0|(c' & E0 & Yc & Dc)]; subst ts; [discriminate ET|]. injection ET as ->.
    destruct (IH _ c' b' Dc eq_refl Hb) as (tr' & b & Y' & -> & G & Hn & D'). exists tr', b, Y'. splits; auto. apply (go_node tr' b r0 [] c' [] b'). exact G.
Qed.
Lemma lead_down u T : leads u T -> forall Y (tr : tree M), derives Y tr -> T = dec tr -> exists tr', u = dec tr' /\ gleads tr' tr.
Proof.
  induction 1 as [|i c r H IH|c H IH]; intros Y tr HD ET.
  - exists tr. split; auto. constructor.
  - destruct tr as [a m|r0 ts]; cbn [Claims15.dec] in ET; [discriminate|]. destruct (r0 <? N) eqn:Lr; [|destruct ts; discriminate].
    injection ET as -> ET. destruct ts as [|c' ts]; [discriminate|]. injection ET as -> ->. inversion HD as [|? ru ? Hru HDs]; subst. inversion HDs as [|Yc ? Ys' ? Dc Dr]; subst.
    destruct (IH _ c' Dc eq_refl) as (tr' & -> & G). exists tr'. split; auto. now constructor.
  - destruct tr as [a m|r0 ts]; cbn [Claims15.dec] in ET; [discriminate|]. destruct (Nat.ltb_spec r0 N) as [L|L]; [discriminate|]. inversion HD as [|? ru ? Hru HDs]; subst.
    destruct (opt_single _ _ _ Hru L HDs) as [E0|(c' & E0 & Yc & Dc)]; subst ts; [discriminate ET|]. injection ET as ->.
    destruct (IH _ c' Dc eq_refl) as (tr' & -> & G). exists tr'. split; auto. now constructor.
Qed.
Lemma dec_rule i ts (tr : tree M) : LRule i ts = dec tr -> exists us, tr = TNode i us /\ ts = map dec us.
Proof. destruct tr as [a m|r us]; cbn [Claims15.dec]; intros H; [discriminate|]. destruct (r <? N); [|destruct us; discriminate]. injection H as -> ->. eauto. Qed.
Lemma dec_tok a (tr : tree M) : LTok a = dec tr -> exists b m, tr = TTok b m /\ gname g b = a.
Proof. destruct tr as [b m|r us]; cbn [Claims15.dec]; intros H; [injection H as ->; eauto|]. destruct (r <? N); [|destruct us]; discriminate. Qed.

(** ** Symbols for elements *)
Lemma shows_member a e Z b : shows ds a e -> elem_sym g opts e Z -> gname g b = a -> member g b Z /\ b < g_nterm g /\ at_name g b a /\ a <> "".
Proof.
  intros HS HZ Hb. assert (HU : upper a).
  { destruct HS as [(n & al & -> & U & Hst)|(ns & o & al & -> & L & Hin)].
    - destruct HZ as [_ HZ]. cbn in HZ. destruct (sym_decl _ _ _ DE _ _ HZ (upper_nonempty _ U)) as (_ & _ & HM). destruct (class_of ds n) as [l|] eqn:Ec; [|now subst].
      destruct (sy_kind (gsym g Z)) as [| |ms] eqn:Ek; try discriminate. injection HM as <-. apply in_map_iff in Hst as (c & <- & Hc).
      eapply de_multi; eauto. rewrite (at_kind g _ _ HZ). now rewrite Ek.
    - destruct ns as [|n1 [|n2 ns]]; try (simpl in L; lia). destruct HZ as (HF & _). rewrite Forall_forall in HF. now apply HF. }
  assert (Lb : b < List.length (g_syms g)).
  { destruct (Nat.lt_ge_cases b (List.length (g_syms g))) as [H|H]; auto. exfalso. unfold gname, gsym in Hb. rewrite nth_overflow in Hb by auto. cbn in Hb. subst a. now apply upper_empty in HU. }
  pose proof (gname_at g b Lb) as Ab. rewrite Hb in Ab.
  assert (HM : member g b Z).
  { destruct HS as [(n & al & -> & Hst)|(ns & o & al & -> & L & Hin)].
    - destruct HZ as [_ HZ]. eapply stands_up; eauto.
    - destruct ns as [|n1 [|n2 ns]]; try (simpl in L; lia). destruct HZ as (_ & _ & ms & HK & HF). right. exists ms. split; auto.
      destruct (forall2_in_r _ _ _ HF _ Hin) as (c & Hc & Ac). rewrite (de_uniq _ _ _ DE b c a); auto. now apply upper_nonempty. }
  splits; auto; [|now apply upper_nonempty]. assert (Ht : is_term g b) by (destruct HM as [[_ H]|(ms & Hk & Hin)]; auto; apply (pp_flat _ _ _ _ _ P Z ms b Hk Hin)).
  apply (wg_term g W b Lb) in Ht. lia.
Qed.
Lemma one_sym n o al al' Y Z : elem_sym g opts ([n], o, al) Y -> elem_sym g opts ([n], o, al') Z -> Y = Z.
Proof.
  intros [Hn HY] [_ HZ]. assert (NE : n <> "") by (destruct Hn; [now apply upper_nonempty|now apply lower_nonempty]). destruct o.
  - destruct HY as (Y0 & IY & AY), HZ as (Z0 & IZ & AZ). assert (Y0 = Z0) by (eapply de_uniq; eauto). subst Z0.
    pose proof (de_opt1 _ _ _ DE) as ND. clear - ND IY IZ. induction opts as [|[a b] l IH]; [contradiction|]. cbn in ND. inversion ND as [|? ? Hn ND']; subst.
    destruct IY as [EY|IY], IZ as [EZ|IZ]; auto; try congruence; exfalso; apply Hn; apply in_map_iff.
    + injection EY as -> ->. exists (Y0, Z). auto.
    + injection EZ as -> ->. exists (Y0, Y). auto.
  - eapply de_uniq; eauto.
Qed.

Hypothesis HA : forall n p, assoc_of ds n = Some p -> upper n.
Notation OW := (one_word ds g opts DE).

Lemma tok_over_down b a r d : gtok_over g b r -> at_name g b a -> a <> "" -> nth_error (rules_in ds) r = Some d -> tok_over ds a d.
Proof.
  intros (i & u & j & v & E1 & E2 & HC) Ha Hne Hd. destruct (rule_prec_decl ds g opts DE W HA r d Hd) as (ru & Hr & _ & E).
  destruct (sym_decl _ _ _ DE _ _ Ha Hne) as (E3 & _). rewrite (grule_nth g _ _ Hr) in E2. exists i, u, j, v. splits; congruence.
Qed.
Lemma rule_over_down b a r d : grule_over g r b -> at_name g b a -> a <> "" -> nth_error (rules_in ds) r = Some d -> rule_over ds d a.
Proof.
  intros (i & u & j & v & E1 & E2 & HC) Ha Hne Hd. destruct (rule_prec_decl ds g opts DE W HA r d Hd) as (ru & Hr & _ & E).
  destruct (sym_decl _ _ _ DE _ _ Ha Hne) as (E3 & _). rewrite (grule_nth g _ _ Hr) in E2. exists i, u, j, v. splits; congruence.
Qed.
Lemma rhs_snoc d ru es n al : rule_made g opts d ru -> d_rhs d = es ++ [([n], false, al)] -> exists ys Y, map fst (r_rhs ru) = ys ++ [Y] /\ List.length ys = List.length es /\ at_name g Y n /\ (upper n \/ lower n) /\ Forall2 (elem_sym g opts) es ys.
Proof.
  intros RM E. pose proof (rm_rhs _ _ _ _ RM) as HF. rewrite E in HF. apply forall2_split in HF as (ys & zs & Ez & F1 & F2). inversion F2 as [|? Y ? ? HeY F3]; subst. destruct HeY as [Hn HY]. inversion F3; subst.
  exists ys, Y. splits; auto. symmetry. eapply forall2_len; eauto.
Qed.
Lemma named_same n Y Z : (upper n \/ lower n) -> at_name g Y n -> at_name g Z n -> Y = Z.
Proof. intros Hn HY HZ. eapply de_uniq; eauto. destruct Hn; [now apply upper_nonempty|now apply lower_nonempty]. Qed.

Lemma start_parts j n a : starts_with ds j n a -> exists rj Y Z zs, nth_error (g_rules g) j = Some rj /\ r_lhs rj = Y /\ at_name g Y n /\ map fst (r_rhs rj) = Y :: Z :: zs /\
  forall b, gname g b = a -> member g b Z /\ b < g_nterm g /\ at_name g b a /\ a <> "".
Proof.
  intros (dj & al & e & es & Hj & HL & E & HS). destruct (decl_at j dj Hj) as (rj & Hrj & RM). pose proof (rm_rhs _ _ _ _ RM) as HF. rewrite E in HF.
  remember (map fst (r_rhs rj)) as Xs eqn:EX. inversion HF as [|? Y ? l1 HeY F1]; subst. destruct HeY as [Hn HY]. inversion F1 as [|? Z ? zs HZ F2]; subst. exists rj, Y, Z, zs. splits; auto.
  - eapply named_same; eauto. apply RM.
  - intros b Hb. eapply shows_member; eauto.
Qed.

Section Kept.
Context (tr : tree M) (K : kept g p p3 0 (g_start g) tr 0) (D : Spec.derives g mt (g_start g) tr).
Let W0 : wants g p 0 (g_start g) := or_introl (conj eq_refl eq_refl).

Lemma occurs_kept u w : occurs u w (dec tr) [] -> exists tr' s Y b, u = dec tr' /\ kept g p p3 s Y tr' b /\ wants g p s Y /\ names_first b w /\ exists Y', derives Y' tr'.
Proof.
  intros H. destruct (occ_down _ _ _ _ H _ tr 0 D eq_refl Logic.I) as (tr' & b & Y' & -> & G & Hb & D'). destruct (occ_state g p p3 p4 t P _ _ _ _ G _ _ K W0) as (s & Y & K' & W'). exists tr', s, Y, b. splits; eauto.
Qed.

Theorem kept_nested : nested ds (dec tr).
Proof.
  constructor.
  - intros i di n l c w j u a us HO (Hi & es & al & Ei) HL HLe HSt. destruct (occurs_kept _ _ HO) as (tr' & s & Y & b & Eu & Ks & Ws & _ & Y' & D').
    apply dec_rule in Eu as (ts & -> & Ets). symmetry in Ets. apply map_eq_app in Ets as (l1 & l2 & -> & <- & Ets). destruct l2 as [|c' [|? ?]]; try discriminate. injection Ets as <-.
    destruct (start_parts j n a HSt) as (rj & A0 & Z & zs & Hrj & HLj & HAn & Ej & HM).
    destruct (decl_at i di Hi) as (ru & Hru & RM). destruct (rhs_snoc di ru es n al RM Ei) as (ys & A1 & Er & _ & HA1 & Hn & _). assert (A1 = A0) by (eapply named_same; eauto). subst A1.
    inversion D' as [|? ru' ? Hru' HDs]; subst. destruct (derives_all_app _ _ _ HDs) as (Y1 & Y2 & EY & D1 & D2). inversion D2 as [|Yc ? Ys' ? Dc Dr]; subst.
    destruct (lead_down _ _ HLe _ c' Dc eq_refl) as (trj & Ej' & GL). apply dec_rule in Ej' as (usj & -> & Eus). destruct usj as [|u' [|ta usj]]; try discriminate. injection Eus as -> Eta ->.
    apply dec_tok in Eta as (a' & m & -> & Ea). destruct (HM a' Ea) as (HMa & La & Aa & Na).
    eapply tok_over_down; [|exact Aa|exact Na|exact Hi].
    eapply (g_left g p p3 p4 t P OW s Y i l1 c' b ru ys (r_lhs rj) j rj Z zs u' a' m usj); eauto. eapply named_same; eauto. apply RM.
  - intros i di n ts a w j HO (Hi & es & al & Ei) HSt. destruct (occurs_kept _ _ HO) as (tr' & s & Y & b & Eu & Ks & Ws & Hb & _). cbn in Hb.
    apply dec_rule in Eu as (us & -> & ->). destruct (start_parts j n a HSt) as (rj & A0 & Z & zs & Hrj & HLj & HAn & Ej & HM).
    destruct (decl_at i di Hi) as (ru & Hru & RM). destruct (rhs_snoc di ru es n al RM Ei) as (ys & A1 & Er & _ & HA1 & Hn & _). assert (A1 = A0) by (eapply named_same; eauto). subst A1.
    destruct (HM b Hb) as (HMa & La & Aa & Na). eapply rule_over_down; [|exact Aa|exact Na|exact Hi].
    eapply (g_right g p p3 p4 t P OW s Y i us b ru ys A0 j rj Z zs); eauto.
Qed.

Lemma like_syms es es' ys zs : Forall2 like es es' -> Forall2 (elem_sym g opts) es ys -> Forall2 (elem_sym g opts) es' zs -> ys = zs.
Proof.
  intros H. revert ys zs. induction H as [|e e' es es' (n & o & al & al' & -> & ->) H IH]; intros ys zs F1 F2; inversion F1; inversion F2; subst; auto. f_equal; auto. eapply one_sym; eauto.
Qed.
Lemma short_parts i j di dj a : shorter ds i j di dj a -> exists ri rj Z zs, nth_error (g_rules g) i = Some ri /\ nth_error (g_rules g) j = Some rj /\ rule_made g opts di ri /\ rule_made g opts dj rj /\
  r_lhs rj = r_lhs ri /\ map fst (r_rhs rj) = map fst (r_rhs ri) ++ Z :: zs /\ forall b, gname g b = a -> member g b Z /\ b < g_nterm g /\ at_name g b a /\ a <> "".
Proof.
  intros (Hi & Hj & HL & es & e & es' & Ej & HF & HS). destruct (decl_at i di Hi) as (ri & Hri & RMi), (decl_at j dj Hj) as (rj & Hrj & RMj).
  pose proof (rm_rhs _ _ _ _ RMi) as Fi. pose proof (rm_rhs _ _ _ _ RMj) as Fj. rewrite Ej in Fj. apply forall2_split in Fj as (ys & zs & Ez & F1 & F2). inversion F2 as [|? Z ? zs' HZ F3]; subst.
  pose proof (like_syms _ _ _ _ HF Fi F1) as E. subst ys. exists ri, rj, Z, zs'. splits; auto.
  - apply (named_same (d_lhs di)); [right; apply RMi|rewrite HL; apply RMj|apply RMi].
  - intros b Hb. eapply shows_member; eauto.
Qed.

Theorem kept_attached : attached ds (dec tr).
Proof.
  constructor.
  - intros i j di dj k l c r w vs a ws n al es HSh HLn Ei Hk HO Ll HLe Lv. destruct (short_parts _ _ _ _ _ HSh) as (ri & rj & Z & zs & Hri & Hrj & RMi & RMj & HL & Ej & HM).
    destruct (rhs_snoc di ri es n al RMi Ei) as (ys & A0 & Er & Ly & HA0 & Hn & _). assert (HLi : r_lhs ri = A0) by (eapply named_same; eauto; rewrite <- HLn; apply RMi).
    destruct (occurs_kept _ _ HO) as (tr' & s & Y & b & Eu & Ks & Ws & _ & Y' & D').
    apply dec_rule in Eu as (ts & -> & Ets). symmetry in Ets. apply map_eq_app in Ets as (l1 & l2 & -> & <- & Ets). destruct l2 as [|c' r']; try discriminate. cbn in Ets. injection Ets as <- <-. rewrite map_length in Ll.
    inversion D' as [|? ru' ? Hru' HDs]; subst. destruct (derives_all_app _ _ _ HDs) as (Y1 & Y2 & EY & D1 & D2). inversion D2 as [|Yc ? Ys' ? Dc Dr]; subst.
    destruct (lead_down _ _ HLe _ c' Dc eq_refl) as (trj & Ej' & GL). apply dec_rule in Ej' as (usj & -> & Eus). symmetry in Eus. apply map_eq_app in Eus as (v1 & v2 & -> & <- & Eus). destruct v2 as [|ta v2]; try discriminate. cbn in Eus. injection Eus as Eta <-. rewrite map_length in Lv.
    symmetry in Eta. apply dec_tok in Eta as (a' & m & -> & Ea). destruct (HM a' Ea) as (HMa & La & Aa & Na).
    eapply tok_over_down; [|exact Aa|exact Na|apply HSh]. rewrite Er, <- app_assoc in Ej. cbn [app] in Ej. rewrite Ei, app_length in Lv. cbn in Lv.
    destruct Hk as [-> | ->].
    + eapply (g_dangling g p p3 p4 t P OW s Y i l1 c' r' b ri ys (r_lhs ri) [] j rj Z zs v1 a' m v2 i ri); eauto; lia.
    + eapply (g_dangling g p p3 p4 t P OW s Y j l1 c' r' b rj ys (r_lhs ri) (Z :: zs) j rj Z zs v1 a' m v2 i ri); eauto; lia.
  - intros i j di dj ts a w HSh HO. destruct (short_parts _ _ _ _ _ HSh) as (ri & rj & Z & zs & Hri & Hrj & RMi & RMj & HL & Ej & HM).
    destruct (occurs_kept _ _ HO) as (tr' & s & Y & b & Eu & Ks & Ws & Hb & _). cbn in Hb. apply dec_rule in Eu as (us & -> & ->).
    destruct (HM b Hb) as (HMa & La & Aa & Na). eapply rule_over_down; [|exact Aa|exact Na|apply HSh].
    eapply (g_short g p p3 p4 t P OW s Y i us b ri j rj Z zs); eauto.
Qed.
End Kept.
End Dec.

Section Build.
Context (ds : list decl) (b : built).
Hypothesis EX : expands ds b.
Hypothesis US : usable ds b.
Notation g := (bt_grammar b). Notation t := (bt_tables b).

(** C39, C40: an input that is accepted without a syntax error has a derivation tree with the
    value that is returned, in which operators are nested and the dangling else is attached as
    the precedences say. *)
Theorem operators_bind {V X E} (sm : sem V X E) n x ks r x' pp : wildcard_of ds = None ->
  (forall a l, assoc_of ds a = Some (l, ANone) -> fallback_of ds a = None) -> tokens_wf b ks ->
  api_run n t sm x ks = ROk (r, x') pp -> ~ dropped pp ->
  exists s v T, start_of ds = Some s /\ meant ds sm (taken ds) s (reading b sm ks) x x' v T /\ r = root_value ds sm s v /\ nested ds T /\ attached ds T.
Proof.
  intros HW HT Hk H Hd. destruct (reading_eq ds b EX US sm ks Hk) as (ER & _ & Hok). destruct (ex_decl ds b EX) as (opts & DE). destruct (de_start _ _ _ DE) as (s & Hs & As & Low).
  destruct (compression_kept ds b EX sm x ks r x' US HW HT Hk) as [HP _]. specialize (HP n pp H Hd). pose proof (ex_pipe ds b EX US) as P.
  destruct (rparse_kept g _ _ _ _ P _ _ _ _ _ _ HP x [] []) as (tr & m & K & Hy & He & Ha); [constructor|]. cbn in Hy.
  assert (HO : toks_ok g (yield tr)) by (exact (eq_ind_r (fun l => toks_ok g l) Hok Hy)).
  pose proof (proj1 (kept_derives g _ _ _ _ P) _ _ _ _ K (au_pos _ _ (ex_aut ds b EX)) HO) as D.
  exists s, (snd m), (dec g (List.length (rules_in ds)) tr). splits; auto.
  - rewrite <- ER, <- Hy. refine (proj1 (proj1 (tree_meant ds g opts DE _ _ _ _ P sm _ _ (linked_taken ds g opts DE (ex_wf ds b EX))) _ _ D HO _ _ _ He) s As (or_intror Low)).
  - eapply root_eq; eauto.
  - eapply kept_nested; eauto using ex_assoc.
  - eapply kept_attached; eauto using ex_assoc.
Qed.
Corollary else_attached {V X E} (sm : sem V X E) n x ks r x' pp : wildcard_of ds = None ->
  (forall a l, assoc_of ds a = Some (l, ANone) -> fallback_of ds a = None) -> tokens_wf b ks ->
  api_run n t sm x ks = ROk (r, x') pp -> ~ dropped pp ->
  exists s v T, start_of ds = Some s /\ meant ds sm (taken ds) s (reading b sm ks) x x' v T /\ r = root_value ds sm s v /\ attached ds T.
Proof. intros HW HT Hk H Hd. destruct (operators_bind sm n x ks r x' pp HW HT Hk H Hd) as (s & v & T & H1 & H2 & H3 & _ & H4). now exists s, v, T. Qed.
End Build.
