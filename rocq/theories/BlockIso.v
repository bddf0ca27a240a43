(** Grammars that differ only in the blocks and aliases of their rules correspond (C54). *)
From Verif Require Import Base Syntax BaseFacts FrontEnd First States Actions Tables Runtime Spec WfGrammar FrontFacts DeclSpec DeclFacts PipeFacts BuildFacts GramFacts LangFacts ActFacts
  FaultSpec LalrFacts Reorder CycleFacts Claims13 IsoFacts AnonFacts OrderIso.
Open Scope string_scope. Open Scope nat_scope. Open Scope list_scope.

(** An element without its alias *)
Definition nameless (e : rhs_elem) : list ident * bool := fst e.
(** Two rules that differ in the block and the aliases only *)
Record shaped (d d' : drule) : Prop := {
  sh_lhs : d_lhs d' = d_lhs d;
  sh_rhs : map nameless (d_rhs d') = map nameless (d_rhs d);
  sh_prec : d_prec d' = d_prec d }.
Lemma shaped_sym d d' : shaped d d' -> shaped d' d.
Proof. intros []. constructor; auto. Qed.
Lemma shaped_nth d d' k e e' : shaped d d' -> nth_error (d_rhs d) k = Some e -> nth_error (d_rhs d') k = Some e' -> nameless e' = nameless e.
Proof. intros SH H H'. pose proof (f_equal (fun l => nth_error l k) (sh_rhs _ _ SH)) as E. cbn in E. rewrite !nth_error_map, H, H' in E. now injection E. Qed.
Lemma shaped_has d d' ns b a : shaped d d' -> In (ns, b, a) (d_rhs d) -> exists a', In (ns, b, a') (d_rhs d').
Proof.
  intros SH H. apply (in_map nameless) in H. rewrite <- (sh_rhs _ _ SH) in H. apply in_map_iff in H as ([[ns' b'] a'] & E & H). cbn in E. injection E as -> ->. eauto.
Qed.
Definition same_place (n i j : nat) : Prop := i = j /\ i < n.
Lemma place_flip n i j : same_place n i j <-> flip (same_place n) i j.
Proof. unfold flip, same_place. split; intros [-> H]; auto. Qed.

Section Fun.
Context (ds1 ds2 : list decl) (g1 g2 : grammar) (o1 o2 : list (nat * nat)).
Context (DE1 : declared ds1 g1 o1) (DE2 : declared ds2 g2 o2) (WR1 : written ds1 g1) (W1 : wf_grammar g1) (W2 : wf_grammar g2).
Context (SH : Forall2 shaped (rules_in ds1) (rules_in ds2)) (EC : forall m, class_of ds2 m = class_of ds1 m) (EA : forall m, assoc_of ds2 m = assoc_of ds1 m) (AU : forall m q, assoc_of ds1 m = Some q -> upper m).
Notation n := (List.length (rules_in ds1)).
Notation P := (same_place n).
Notation S := (sym_to g1 g2 o1 o2 P).
Notation R := (rule_to g1 g2 o1 o2 n P).

Lemma bk_len : List.length (rules_in ds2) = n.
Proof. symmetry. exact (forall2_lt _ _ _ SH). Qed.
Lemma bk_rules i : i < n -> exists d d' ru qu, nth_error (rules_in ds1) i = Some d /\ nth_error (rules_in ds2) i = Some d' /\ shaped d d' /\ nth_error (g_rules g1) i = Some ru /\ nth_error (g_rules g2) i = Some qu /\
  rule_made g1 o1 d ru /\ rule_made g2 o2 d' qu.
Proof.
  intros L. destruct (nth_error (rules_in ds1) i) as [d|] eqn:Ed; [|apply nth_error_None in Ed; lia]. destruct (forall2_nth _ _ _ SH _ _ Ed) as (d' & Hd' & HS). destruct (sd_low _ _ _ DE1 _ _ Ed) as (ru & Hr & RM).
  destruct (sd_low _ _ _ DE2 _ _ Hd') as (qu & Hq & RM'). exists d, d', ru, qu. splits; auto.
Qed.
Lemma bk_fun X Y Y' : S X Y -> S X Y' -> Y = Y'.
Proof.
  intros [(m & Km & A1 & A2)|[(Z1 & Z1' & m & I1 & I2 & A1 & A2 & Hm)|(A1 & A2 & r & q & ru & qu & d & HP & Hr & Hq & Hd & Hd')]]
         [(m' & Km' & B1 & B2)|[(Z2 & Z2' & m' & J1 & J2 & B1 & B2 & Hm')|(B1 & B2 & r' & q' & ru' & qu' & d' & HP' & Hr' & Hq' & He & He')]].
  - pose proof (at_fun _ _ _ _ A1 B1) as ->. apply (de_uniq _ _ _ DE2 Y Y' m'); auto. now apply known_ne.
  - exfalso. destruct (opt_named _ _ _ DE1 _ _ J1) as (k & Hk). apply (known_opt k m Km). exact (at_fun _ _ _ _ A1 Hk).
  - exfalso. apply (known_ne m Km). exact (at_fun _ _ _ _ A1 B1).
  - exfalso. destruct (opt_named _ _ _ DE1 _ _ I1) as (k & Hk). apply (known_opt k m' Km'). exact (at_fun _ _ _ _ B1 Hk).
  - pose proof (opt_uniq _ _ _ DE1 _ _ _ I1 J1) as ->. pose proof (at_fun _ _ _ _ A1 B1) as ->. assert (Z1' = Z2') as -> by (apply (de_uniq _ _ _ DE2 _ _ m'); auto; now apply known_ne, known_id).
    eapply sd_opt1; eauto.
  - exfalso. destruct (opt_named _ _ _ DE1 _ _ I1) as (k & Hk). pose proof (at_fun _ _ _ _ Hk B1). discriminate.
  - exfalso. apply (known_ne m' Km'). exact (at_fun _ _ _ _ B1 A1).
  - exfalso. destruct (opt_named _ _ _ DE1 _ _ J1) as (k & Hk). pose proof (at_fun _ _ _ _ Hk A1). discriminate.
  - destruct (anon_place ds1 g1 X r r' ru ru' d d' WR1 A1 Hr Hr' Hd He) as [-> ->]. destruct HP as [-> _], HP' as [-> _]. congruence.
Qed.
Lemma bk_rfun r q q' : R r q -> R r q' -> q = q'.
Proof.
  intros [[-> H]|(j & j' & e & Z & Z' & X & Y & m & I1 & I2 & Le & A1 & A2 & Hm & -> & ->)] [[E H']|(k & k' & e' & Z2 & Z2' & X2 & Y2 & m2 & J1 & J2 & Le2 & B1 & B2 & Hm2 & E & ->)]; try lia.
  assert (j = k) as -> by lia. assert (e = e') as -> by lia. rewrite I1 in J1. injection J1 as <- <-. pose proof (at_fun _ _ _ _ A1 B1) as ->.
  assert (Z' = Z2') as -> by (apply (de_uniq _ _ _ DE2 _ _ m2); auto; now apply known_ne, known_id). pose proof (sd_fst _ _ _ DE2 _ _ _ _ _ I2 J2) as ->. reflexivity.
Qed.
Lemma bk_multi toks l m : Forall (fun x => upper x) toks -> Forall2 (at_name g1) l toks -> Forall2 (at_name g2) m toks -> Forall2 S l m.
Proof.
  intros HU. revert l m. induction HU as [|t ts U HU IH]; intros l m H1 H2; inversion H1; subst; inversion H2; subst; constructor; auto. left. exists t. splits; auto. now right; left.
Qed.
Lemma bk_kind X Y : S X Y -> exists k1 k2, kind_at g1 X = Some k1 /\ kind_at g2 Y = Some k2 /\ kind_alike S k1 k2.
Proof.
  intros [(m & Km & A1 & A2)|[(Z1 & Z1' & m & I1 & I2 & A1 & A2 & Hm)|(A1 & A2 & r & q & ru & qu & d & HP & Hr & Hq & Hd & Hd')]].
  - destruct Km as [->|[U|L]].
    + exists KTerm, KTerm. destruct (dollar_kind _ _ _ _ DE1 A1). destruct (dollar_kind _ _ _ _ DE2 A2). splits; auto. exact Logic.I.
    + pose proof (class_kind _ _ _ _ _ DE1 W1 A1 U) as C1. pose proof (class_kind _ _ _ _ _ DE2 W2 A2 U) as C2. rewrite EC in C2. destruct (class_of ds1 m) as [ns|].
      * destruct C1 as (l1 & K1 & E1 & M1). destruct C2 as (l2 & K2 & E2 & M2). exists (KMulti l1), (KMulti l2). splits; auto. cbn. apply (bk_multi ns).
        -- subst ns. apply Forall_forall. intros x Hx. apply in_map_iff in Hx as (y & <- & Hy). now apply M1.
        -- subst ns. clear -M1. induction l1; cbn; constructor; auto; [apply M1; now left|]. apply IHl1. intros x Hx. apply M1. now right.
        -- rewrite <- E2. clear -M2. induction l2; cbn; constructor; auto; [apply M2; now left|]. apply IHl2. intros x Hx. apply M2. now right.
      * exists KTerm, KTerm. splits; auto. exact Logic.I.
    + exists KNonTerm, KNonTerm. splits; [eapply lower_kind; eauto|eapply lower_kind; eauto|exact Logic.I].
  - destruct (opt_named _ _ _ DE1 _ _ I1) as (k & Hk). destruct (opt_named _ _ _ DE2 _ _ I2) as (k' & Hk'). exists KNonTerm, KNonTerm. splits; [eapply opt_nonterm; eauto|eapply opt_nonterm; eauto|exact Logic.I].
  - destruct HP as [-> L]. destruct (bk_rules _ L) as (dr & dr' & ru' & qu' & D1 & D2 & HS & Hr' & Hq' & RM1 & RM2). assert (ru' = ru) by congruence. assert (qu' = qu) by congruence. subst ru' qu'.
    destruct (forall2_nth _ _ _ (forall2_flip _ _ _ (rm_rhs _ _ _ _ RM1)) _ _ Hd) as (e & He & HE). destruct (forall2_nth _ _ _ (forall2_flip _ _ _ (rm_rhs _ _ _ _ RM2)) _ _ Hd') as (e' & He' & HE').
    pose proof (shaped_nth _ _ _ _ _ HS He He') as EB. unfold flip in HE, HE'. destruct (anon_elem _ _ _ _ _ DE1 HE A1) as (toks & al & b & l & -> & Lt & HU & HK & HF). destruct (anon_elem _ _ _ _ _ DE2 HE' A2) as (toks' & al' & b' & l' & -> & _ & _ & HK' & HF').
    cbn in EB. injection EB as -> ->. exists (KMulti l), (KMulti l'). splits; auto. cbn. eapply bk_multi; eauto.
Qed.
Lemma bk_au m q : assoc_of ds2 m = Some q -> upper m.
Proof. rewrite EA. apply AU. Qed.
Lemma bk_prec X Y : S X Y -> sy_prec (gsym g2 Y) = sy_prec (gsym g1 X).
Proof.
  intros [(m & Km & A1 & A2)|[(Z1 & Z1' & m & I1 & I2 & A1 & A2 & Hm)|(A1 & A2 & _)]].
  - rewrite (prec_at _ _ _ DE1 _ _ A1 (known_ne _ Km)), (prec_at _ _ _ DE2 _ _ A2 (known_ne _ Km)). apply EA.
  - destruct (opt_named _ _ _ DE1 _ _ I1) as (k & Hk). destruct (opt_named _ _ _ DE2 _ _ I2) as (k' & Hk'). rewrite (prec_at _ _ _ DE1 _ _ Hk), (prec_at _ _ _ DE2 _ _ Hk') by discriminate.
    rewrite (assoc_opt ds1 AU), (assoc_opt ds2 bk_au). reflexivity.
  - destruct A1 as (s1 & H1 & E1). destruct A2 as (s2 & H2 & E2). unfold gsym. rewrite (nth_error_nth _ _ _ H1), (nth_error_nth _ _ _ H2). destruct (de_anon _ _ _ DE1 _ _ H1 E1) as (-> & _). destruct (de_anon _ _ _ DE2 _ _ H2 E2) as (-> & _). reflexivity.
Qed.
Lemma bk_nterm X Y : S X Y -> X < g_nterm g1 <-> Y < g_nterm g2.
Proof.
  intros H. destruct (bk_kind _ _ H) as (k1 & k2 & K1 & K2 & K). rewrite <- (wg_term g1 W1 X (kind_lt _ _ _ K1)), <- (wg_term g2 W2 Y (kind_lt _ _ _ K2)), K1, K2.
  destruct k1, k2; cbn in K; try contradiction; split; congruence.
Qed.
Lemma bk_names e e' : nameless e' = nameless e -> elem_names ds2 e' = elem_names ds1 e.
Proof. destruct e as [[ns b] a], e' as [[ns' b'] a']. cbn. intros E. injection E as -> ->. destruct ns as [|x [|y l]], b; cbn; auto. now rewrite EC. Qed.
Lemma bk_first l : first_of (assoc_of ds2) l = first_of (assoc_of ds1) l.
Proof. apply first_of_ext. intros. apply EA. Qed.
Lemma bk_prec_of d d' : shaped d d' -> prec_of ds2 d' = prec_of ds1 d.
Proof.
  intros HS. unfold prec_of. rewrite (sh_prec _ _ HS). destruct (d_prec d); [apply EA|]. rewrite bk_first. f_equal.
  pose proof (sh_rhs _ _ HS) as E. revert E. generalize (d_rhs d') as l'. generalize (d_rhs d) as l. induction l as [|e l IH]; intros [|e' l'] E; try discriminate; auto. cbn [map] in E. injection E as E0 E. cbn [flat_map]. rewrite (bk_names e e' E0). f_equal. now apply IH.
Qed.
Lemma bk_elem r ru qu d e e' X Y : r < n -> nth_error (g_rules g1) r = Some ru -> nth_error (g_rules g2) r = Some qu -> nth_error (map fst (r_rhs ru)) d = Some X -> nth_error (map fst (r_rhs qu)) d = Some Y ->
  nameless e' = nameless e -> elem_sym g1 o1 e X -> elem_sym g2 o2 e' Y -> S X Y.
Proof.
  intros HP Hr Hq HX HY EB E1 E2. destruct e as [[toks b] al], e' as [[toks' b'] al']. cbn in EB. injection EB as -> ->. destruct toks as [|t [|t2 toks]]; [destruct E1| |].
  - destruct E1 as [Ht E1]. destruct E2 as [_ E2]. destruct b.
    + destruct E1 as (Z & HZ & A1). destruct E2 as (Z' & HZ' & A2). right. left. exists Z, Z', t. auto.
    + left. exists t. splits; auto. now right.
  - destruct E1 as (_ & A1 & _). destruct E2 as (_ & A2 & _). right. right. splits; auto. exists r, r, ru, qu, d. splits; auto. now split.
Qed.
Lemma bk_alike r q : R r q -> exists ru qu, nth_error (g_rules g1) r = Some ru /\ nth_error (g_rules g2) q = Some qu /\ made_alike S ru qu.
Proof.
  intros [[<- L]|(j & j' & e & Z & Z' & X & Y & m & I1 & I2 & Le & A1 & A2 & Hm & -> & ->)].
  - destruct (bk_rules _ L) as (d & d' & ru0 & qu0 & D1 & D2 & HS & Hr0 & Hq0 & _). destruct (rule_prec_decl ds1 g1 o1 DE1 W1 AU _ _ D1) as (ru & Hr & RM1 & E1). destruct (rule_prec_decl ds2 g2 o2 DE2 W2 bk_au _ _ D2) as (qu & Hq & RM2 & E2).
    exists ru, qu. splits; auto. constructor.
    + left. exists (d_lhs d). splits; [right; right; apply RM1|apply RM1|rewrite <- (sh_lhs _ _ HS); apply RM2].
    + apply nth_forall2; [rewrite <- (forall2_lt _ _ _ (rm_rhs _ _ _ _ RM1)), <- (forall2_lt _ _ _ (rm_rhs _ _ _ _ RM2)); rewrite <- (map_length nameless (d_rhs d)), <- (map_length nameless (d_rhs d')), (sh_rhs _ _ HS); reflexivity|].
      intros i X Y HX HY. destruct (forall2_nth _ _ _ (forall2_flip _ _ _ (rm_rhs _ _ _ _ RM1)) _ _ HX) as (e & He & HE). destruct (forall2_nth _ _ _ (forall2_flip _ _ _ (rm_rhs _ _ _ _ RM2)) _ _ HY) as (e' & He' & HE').
      exact (bk_elem r ru qu i e e' X Y L Hr Hq HX HY (shaped_nth _ _ _ _ _ HS He He') HE HE').
    + rewrite E1, E2. now apply bk_prec_of.
  - assert (HS : S X Y) by (right; left; exists Z, Z', m; splits; auto; eapply nth_error_In; eauto). assert (HZ : S Z Z') by (left; exists m; splits; auto; now right).
    pose proof (sd_opt _ _ _ DE1 _ _ _ I1 Le) as R1. pose proof (sd_opt _ _ _ DE2 _ _ _ I2 Le) as R2. rewrite bk_len in R2. destruct e as [|[|e]]; [| |lia]; cbn [nth_error opt_made] in R1, R2.
    + do 2 eexists. splits; eauto. constructor; cbn; auto.
    + do 2 eexists. splits; eauto. constructor; cbn; auto. assert (HP : forall al, elem_sym g1 o1 ([m], false, al) Z /\ elem_sym g2 o2 ([m], false, al) Z') by (intros; cbn; auto).
      rewrite (elem_prec ds1 g1 o1 DE1 W1 AU _ _ (proj1 (HP None))), (elem_prec ds2 g2 o2 DE2 W2 bk_au _ _ (proj2 (HP None))), (bk_names ([m], false, None) ([m], false, None) eq_refl). apply bk_first.
Qed.
Lemma bk_total r : r < List.length (g_rules g1) -> exists q, R r q.
Proof.
  intros L. destruct (sd_split _ _ _ DE1 r L) as [H|(j & e & [Z X] & Hj & He & ->)]; [exists r; left; now split|].
  pose proof (nth_error_In _ _ Hj) as HI. destruct (de_opt4 _ _ _ DE1 _ _ HI) as (d & m & al & Hd & Hel & AZ).
  destruct (GramFacts.forall2_in_l _ _ _ SH _ Hd) as (d' & Hd' & HS). destruct (shaped_has _ _ _ _ _ HS Hel) as (al' & Hel'). apply In_nth_error in Hd' as [k Hk].
  destruct (sd_low _ _ _ DE2 _ _ Hk) as (qu & _ & RM). destruct (GramFacts.forall2_in_l _ _ _ (rm_rhs _ _ _ _ RM) _ Hel') as (Y & _ & Hm & Z' & HZ' & AZ').
  apply In_nth_error in HZ' as [j' Hj']. exists (n + (2 * j' + e)). right. exists j, j', e, Z, Z', X, Y, m. splits; auto.
Qed.
Lemma bk_opt_prec j e pr ru : nth_error o1 j = Some pr -> e < 2 -> nth_error (g_rules g1) (n + (2 * j + e)) = Some ru -> r_prec ru <> None -> e = 1 /\ r_rhs ru = [(fst pr, true)].
Proof.
  intros Hj He Hr Hp. rewrite (sd_opt _ _ _ DE1 _ _ _ Hj He) in Hr. destruct e as [|[|e]]; [| |lia]; cbn in Hr; injection Hr as <-; cbn in *; [contradiction|auto].
Qed.
Lemma bk_ordered : ordered g1 R.
Proof.
  intros gamma a r r' q q' H1 H2 P1 P2 R1 R2.
  destruct R1 as [[-> A1]|(j & j' & e & Z & Z' & X & Y & m & I1 & I2 & Le & A1 & A2 & Hm & -> & ->)], R2 as [[-> B1]|(k & k' & e' & Z2 & Z2' & X2 & Y2 & m2 & J1 & J2 & Le2 & B1 & B2 & Hm2 & -> & ->)]; try (split; lia).
  inversion H1 as [|gm1 r0 ru C1 K1 T1 U1]; subst r0. inversion H2 as [|gm2 q0 qu C2 K2 T2 U2]; subst q0.
  change (nth_error (g_rules g1) (n + (2 * j + e)) = Some ru) in K1. change (nth_error (g_rules g1) (n + (2 * k + e')) = Some qu) in K2. rewrite (grule_nth _ _ _ K1) in P1. rewrite (grule_nth _ _ _ K2) in P2.
  destruct (bk_opt_prec _ _ _ _ I1 Le K1 P1) as [-> E1]. destruct (bk_opt_prec _ _ _ _ J1 Le2 K2 P2) as [-> E2]. cbn [fst] in E1, E2. rewrite E1 in T1. rewrite E2 in T2. cbn in T1, T2. apply lr1_lr0 in T1, T2. apply C1 in T1. apply C2 in T2.
  destruct (lr0_end _ _ _ _ T1 ru Z true K1) as (g3 & E3); [now rewrite E1|lia|]. destruct (lr0_end _ _ _ _ T2 qu Z2 true K2) as (g4 & E4); [now rewrite E2|lia|].
  assert (Z = Z2) as <- by (apply app_inj_tail with (x := g3) (y := g4); congruence). pose proof (sd_fst _ _ _ DE1 _ _ _ _ _ I1 J1) as <-.
  pose proof (at_fun _ _ _ _ A1 B1) as <-. assert (Z' = Z2') as <- by (apply (de_uniq _ _ _ DE2 _ _ m); auto; now apply known_ne, known_id). pose proof (sd_fst _ _ _ DE2 _ _ _ _ _ I2 J2) as <-. lia.
Qed.
End Fun.

Lemma to_same g1 g2 o1 o2 n X Y : sym_to g1 g2 o1 o2 (same_place n) X Y -> sym_to g2 g1 o2 o1 (same_place n) Y X.
Proof.
  intros [(m & H)|[(Z & Z' & m & H)|(H1 & H2 & r & q & ru & qu & d & [-> L] & H)]]; [left; exists m; tauto|right; left; exists Z', Z, m; tauto|].
  right. right. splits; auto. exists q, q, qu, ru, d. split; [now split|]. tauto.
Qed.
Lemma rto_same g1 g2 o1 o2 n r q : rule_to g1 g2 o1 o2 n (same_place n) r q -> rule_to g2 g1 o2 o1 n (same_place n) q r.
Proof. intros [[-> H]|(j & j' & e & Z & Z' & X & Y & m & H)]; [left; now split|]. right. exists j', j, e, Z', Z, Y, X, m. tauto. Qed.

Theorem placed_blocks ds1 ds2 g1 g2 o1 o2 : written ds1 g1 -> written ds2 g2 -> declared ds1 g1 o1 -> declared ds2 g2 o2 -> Forall2 shaped (rules_in ds1) (rules_in ds2) -> (forall m, class_of ds2 m = class_of ds1 m) -> (forall m, assoc_of ds2 m = assoc_of ds1 m) ->
  start_of ds2 = start_of ds1 -> (forall m q, assoc_of ds1 m = Some q -> upper m) -> let P := same_place (List.length (rules_in ds1)) in
  iso g1 g2 (sym_to g1 g2 o1 o2 P) (rule_to g1 g2 o1 o2 (List.length (rules_in ds1)) P) /\ ordered g1 (rule_to g1 g2 o1 o2 (List.length (rules_in ds1)) P).
Proof.
  intros WR1 WR2 DE1 DE2 SH EC EA ES AU P. pose proof (written_wf _ _ WR1) as W1. pose proof (written_wf _ _ WR2) as W2.
  assert (SH' : Forall2 shaped (rules_in ds2) (rules_in ds1)) by (clear -SH; induction SH; constructor; auto using shaped_sym).
  assert (En : List.length (rules_in ds2) = List.length (rules_in ds1)) by (symmetry; exact (forall2_lt _ _ _ SH)).
  assert (EC' : forall m, class_of ds1 m = class_of ds2 m) by auto. assert (EA' : forall m, assoc_of ds1 m = assoc_of ds2 m) by auto.
  subst P. split; [constructor|].
  - intros X Y Y'. eapply bk_fun; eauto.
  - intros X X' Y H H'. apply to_same in H, H'. rewrite <- En in H, H'. exact (bk_fun ds2 ds1 g2 g1 o2 o1 DE2 DE1 WR2 _ _ _ H H').
  - intros r q q'. eapply bk_rfun; eauto.
  - intros r r' q H H'. apply rto_same in H, H'. rewrite <- En in H, H'. eapply (bk_rfun ds2 ds1 g2 g1 o2 o1); eauto.
  - left. exists "$". splits; [now left|apply DE1|apply DE2].
  - destruct (de_start _ _ _ DE1) as (s & E1 & A1 & L). destruct (de_start _ _ _ DE2) as (s' & E2 & A2 & _). rewrite ES in E2. assert (s' = s) by congruence. subst s'. left. exists s. splits; auto. now right; right.
  - intros X Y. eapply bk_kind; eauto.
  - intros X Y. eapply bk_prec; eauto.
  - intros X Y. eapply bk_nterm; eauto.
  - intros r q. eapply bk_alike; eauto.
  - intros r. eapply bk_total; eauto.
  - intros q L. destruct (bk_total ds2 ds1 g2 g1 o2 o1 DE2 DE1 SH' q L) as [r Hr]. exists r. apply rto_same in Hr. rewrite En in Hr. exact Hr.
  - eapply bk_ordered; eauto.
Qed.

(** The two grammars have a conflict, or a rule that is lost, alike. *)
Theorem blocks_iso ds1 ds2 g1 g2 : written ds1 g1 -> written ds2 g2 -> Forall2 shaped (rules_in ds1) (rules_in ds2) -> (forall m, class_of ds2 m = class_of ds1 m) -> (forall m, assoc_of ds2 m = assoc_of ds1 m) ->
  start_of ds2 = start_of ds1 -> (forall m q, assoc_of ds1 m = Some q -> upper m) -> exists S R, iso g1 g2 S R /\ ordered g1 R.
Proof.
  intros WR1 WR2 SH EC EA ES AU. destruct (proj2 WR1) as [o1 DE1]. destruct (proj2 WR2) as [o2 DE2]. do 2 eexists. exact (placed_blocks ds1 ds2 g1 g2 o1 o2 WR1 WR2 DE1 DE2 SH EC EA ES AU).
Qed.
