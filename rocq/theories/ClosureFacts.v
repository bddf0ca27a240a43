(** Configurations, their keys, and what [configlist_closure] computes. *)
From Verif Require Import Base Syntax BaseFacts FrontEnd First States Spec WfGrammar FirstFacts.

(** ** Items *)
Definition key := (nat * nat)%type.
Definition kpost (g : grammar) (k : key) : option nat :=
  option_map fst (nth_error (r_rhs (grule g (fst k))) (snd k)).
Definition krest (g : grammar) (k : key) : list nat :=
  map fst (skipn (S (snd k)) (r_rhs (grule g (fst k)))).
Definition kvalid (g : grammar) (k : key) : Prop :=
  fst k < List.length (g_rules g) /\ snd k <= List.length (r_rhs (grule g (fst k))).
Definition kadv (k : key) : key := (fst k, S (snd k)).

(** [k2] is introduced by [k1] in a closure. *)
Definition kstep (g : grammar) (k1 k2 : key) : Prop :=
  exists X, kpost g k1 = Some X /\ In (fst k2) (rules_of g X) /\ snd k2 = 0.

Inductive clo_reach (g : grammar) (B : key -> Prop) : key -> Prop :=
| cr_base k : B k -> clo_reach g B k
| cr_step k k' : clo_reach g B k -> kstep g k k' -> clo_reach g B k'.

Lemma key_eqb_true a b : key_eqb a b = true <-> a = b.
Proof.
  unfold key_eqb. rewrite andb_true_iff, !Nat.eqb_eq. destruct a, b; simpl. split; intros H.
  - destruct H; congruence.
  - inversion H; auto.
Qed.

Lemma shift_sym_kpost g cs c : shift_sym g (cfg cs c) = kpost g (ckey cs c).
Proof. reflexivity. Qed.

Lemma kpost_valid g k X : kvalid g k -> kpost g k = Some X -> kvalid g (kadv k).
Proof.
  unfold kvalid, kpost, kadv; simpl. intros [H1 H2] H. split; auto.
  destruct (nth_error _ _) eqn:E; [|discriminate].
  assert (snd k < List.length (r_rhs (grule g (fst k)))) by (apply nth_error_Some; congruence). lia.
Qed.

Lemma kstep_valid g k1 k2 : kstep g k1 k2 -> kvalid g k2.
Proof.
  intros (X & _ & Hin & Hd). apply in_rules_of in Hin as (ru & Hr & _).
  split; [apply nth_error_Some; congruence|lia].
Qed.

Lemma kpost_in g k X : kvalid g k -> kpost g k = Some X ->
  exists ru, nth_error (g_rules g) (fst k) = Some ru /\ In X (map fst (r_rhs ru)).
Proof.
  intros [H1 H2] H. exists (grule g (fst k)). split; [now apply nth_grule|].
  unfold kpost in H. destruct (nth_error _ _) as [[Y al]|] eqn:E; [|discriminate].
  apply nth_error_In in E. inversion H; subst. apply in_map_iff. exists (X, al). auto.
Qed.

Lemma krest_in g k X : kvalid g k -> In X (krest g k) ->
  exists ru, nth_error (g_rules g) (fst k) = Some ru /\ In X (map fst (r_rhs ru)).
Proof.
  intros [H1 H2] H. exists (grule g (fst k)). split; [now apply nth_grule|].
  unfold krest in H. apply in_map_iff in H as (p & <- & Hp). apply in_map.
  rewrite <- (firstn_skipn (S (snd k)) (r_rhs (grule g (fst k)))). apply in_or_app. now right.
Qed.

(** ** [follow_rest] *)
Definition fi_ok (g : grammar) (fi : firsts) : Prop :=
  (forall X, lam_of (fi_lam fi) X = true <-> nullable g X) /\
  (forall X b, kind_at g X = Some KNonTerm -> (In b (first_of (fi_first fi) X) <-> first g b X)).

Section Closure.
Context (g : grammar) (fi : firsts) (W : wf_grammar g) (F : fi_ok g fi).

Lemma follow_rest_spec rest fws fws' broken :
  (forall X, In X (map fst rest) -> X < List.length (g_syms g)) ->
  follow_rest g fi rest fws = (fws', broken) ->
  (forall b, In b fws' <-> In b fws \/ first_all g b (map fst rest)) /\
  (broken = false <-> nullable_all g (map fst rest)).
Proof.
  destruct F as [F1 F2].
  revert fws; induction rest as [|[x al] rest IH]; intros fws HX H; cbn [follow_rest map fst] in *.
  - inversion H; subst. split.
    + intros b. split; auto. intros [Hb|Hb]; auto. inversion Hb.
    + split; auto. constructor.
  - assert (Hx : kind_at g x = Some (sy_kind (gsym g x))) by (apply gsym_kind_at, HX; now left).
    assert (Hnn : sy_kind (gsym g x) <> KNonTerm -> ~ nullable g x).
    { intros Hk Hn. apply nullable_nt in Hn; auto. congruence. }
    assert (Hnr : sy_kind (gsym g x) <> KNonTerm -> forall b, first g b x <-> member g b x).
    { intros Hk b. split; [|apply f_term]. intros Hf. inversion Hf as [|r ru Hr Hf']; subst; auto.
      apply (wg_rule g W) in Hr as [Hr _]. congruence. }
    destruct (sy_kind (gsym g x)) eqn:Ek.
    + inversion H; subst. split.
      * intros b. rewrite sadd_in. split.
        -- intros [->|Hb]; auto. right. apply f_here, f_term. left. auto.
        -- intros [Hb|Hb]; auto. left. inversion Hb as [? ? Hf|? ? Hn Hf]; subst.
           ++ apply Hnr in Hf; [|congruence]. destruct Hf as [[-> _]|(ms & Hms & _)]; congruence.
           ++ exfalso. apply Hnn; auto. congruence.
      * split; [discriminate|]. intros Hn. inversion Hn; subst. exfalso. apply Hnn; auto. congruence.
    + assert (Hfx : forall b, In b (first_of (fi_first fi) x) <-> first g b x) by (intros; now apply F2).
      destruct (lam_of (fi_lam fi) x) eqn:El.
      * apply IH in H as [H1 H2]; [|intros; apply HX; now right]. apply F1 in El. split.
        -- intros b. rewrite H1, sunion_in, Hfx. split.
           ++ intros [[Hb|Hb]|Hb]; auto; right; [now apply f_here|now apply f_skip].
           ++ intros [Hb|Hb]; auto. inversion Hb; subst; auto.
        -- rewrite H2. split; intros Hn; [now constructor|now inversion Hn].
      * inversion H; subst. assert (Hnl : ~ nullable g x) by (intros Hn; apply F1 in Hn; congruence). split.
        -- intros b. rewrite sunion_in, Hfx. split.
           ++ intros [Hb|Hb]; auto. right. now apply f_here.
           ++ intros [Hb|Hb]; auto. inversion Hb; subst; auto. contradiction.
        -- split; [discriminate|]. intros Hn. inversion Hn; subst. contradiction.
    + inversion H; subst. split.
      * intros b. rewrite sunion_in. split.
        -- intros [Hb|Hb]; auto. right. apply f_here, f_term. right. eauto.
        -- intros [Hb|Hb]; auto. right. inversion Hb as [? ? Hf|? ? Hn Hf]; subst.
           ++ apply Hnr in Hf; [|congruence]. destruct Hf as [[-> Hf]|(ms & Hms & Hin)].
              ** unfold is_term in Hf. congruence.
              ** congruence.
           ++ exfalso. apply Hnn; auto. congruence.
      * split; [discriminate|]. intros Hn. inversion Hn; subst. exfalso. apply Hnn; auto. congruence.
Qed.

(** ** Arena growth *)
Record cgrow (cs cs' : list config) : Prop := {
  cg_len : List.length cs <= List.length cs';
  cg_key : forall i, i < List.length cs -> ckey cs' i = ckey cs i;
  cg_fws : forall i, i < List.length cs -> incl (c_fws (cfg cs i)) (c_fws (cfg cs' i));
  cg_fplp : forall i, i < List.length cs -> incl (c_fplp (cfg cs i)) (c_fplp (cfg cs' i));
  cg_bplp : forall i, i < List.length cs -> incl (c_bplp (cfg cs i)) (c_bplp (cfg cs' i)) }.

Lemma cgrow_refl cs : cgrow cs cs.
Proof. constructor; auto using incl_refl. Qed.

Lemma cgrow_trans a b c : cgrow a b -> cgrow b c -> cgrow a c.
Proof.
  intros [L1 K1 W1 P1 B1] [L2 K2 W2 P2 B2].
  constructor; [lia|..]; intros i Hi; assert (i < List.length b) by lia.
  - rewrite K2, K1; auto.
  - eapply incl_tran; [apply W1|apply W2]; auto.
  - eapply incl_tran; [apply P1|apply P2]; auto.
  - eapply incl_tran; [apply B1|apply B2]; auto.
Qed.

Lemma cfg_app_l cs l i : i < List.length cs -> cfg (cs ++ l) i = cfg cs i.
Proof. intros H. unfold cfg. now rewrite app_nth1. Qed.

Lemma cfg_app_new cs c : cfg (cs ++ [c]) (List.length cs) = c.
Proof. unfold cfg. rewrite app_nth2, Nat.sub_diag; auto. Qed.

Lemma cgrow_app cs l : cgrow cs (cs ++ l).
Proof.
  constructor; [rewrite app_length; lia|..]; intros i Hi; unfold ckey; rewrite cfg_app_l; auto using incl_refl.
Qed.

Lemma cfg_upd cs i f j : cfg (upd cs i f) j = if (i =? j) && (j <? List.length cs) then f (cfg cs j) else cfg cs j.
Proof. apply nth_upd. Qed.

Lemma cfg_upd_same cs i f : i < List.length cs -> cfg (upd cs i f) i = f (cfg cs i).
Proof. apply nth_upd_same. Qed.

Lemma cfg_upd_other cs i j f : i <> j -> cfg (upd cs i f) j = cfg cs j.
Proof. apply nth_upd_other. Qed.

Lemma cgrow_upd cs i f :
  (forall c, c_rule (f c) = c_rule c /\ c_dot (f c) = c_dot c) ->
  (i < List.length cs -> incl (c_fws (cfg cs i)) (c_fws (f (cfg cs i))) /\
     incl (c_fplp (cfg cs i)) (c_fplp (f (cfg cs i))) /\
     incl (c_bplp (cfg cs i)) (c_bplp (f (cfg cs i)))) ->
  cgrow cs (upd cs i f).
Proof.
  intros Hk H. constructor; [rewrite upd_length; lia|..]; intros j Hj.
  - unfold ckey. rewrite cfg_upd. destruct ((i =? j) && _); auto. destruct (Hk (cfg cs j)) as [-> ->]. auto.
  - rewrite cfg_upd. destruct (Nat.eqb_spec i j); simpl; [|apply incl_refl].
    subst. rewrite (proj2 (Nat.ltb_lt _ _) Hj). now apply H.
  - rewrite cfg_upd. destruct (Nat.eqb_spec i j); simpl; [|apply incl_refl].
    subst. rewrite (proj2 (Nat.ltb_lt _ _) Hj). now apply H.
  - rewrite cfg_upd. destruct (Nat.eqb_spec i j); simpl; [|apply incl_refl].
    subst. rewrite (proj2 (Nat.ltb_lt _ _) Hj). now apply H.
Qed.

(** ** [add_config] *)
Lemma add_config_spec cs cur r d i cur' cs' :
  add_config cs cur r d = (i, cur', cs') ->
  (In i cur /\ cur' = cur /\ cs' = cs /\ ckey cs i = (r, d)) \/
  (i = List.length cs /\ cur' = cur ++ [i] /\ cs' = cs ++ [mkCfg r d [] [] [] false] /\
   forall c, In c cur -> ckey cs c <> (r, d)).
Proof.
  unfold add_config. destruct (find _ _) as [x|] eqn:E; intros H; inversion H; subst.
  - left. apply find_some in E as [E1 E2]. apply key_eqb_true in E2. auto.
  - right. repeat split; auto. intros c Hc Hk.
    apply (find_none _ _ E) in Hc. rewrite Hk in Hc.
    rewrite (proj2 (key_eqb_true _ _)) in Hc; auto. discriminate.
Qed.

(** ** The closure loop *)
(** What has been done for the item [c]. *)
Definition processed (cur : list nat) (cs : list config) (c : nat) : Prop :=
  forall X, kpost g (ckey cs c) = Some X -> kind_at g X = Some KNonTerm ->
    (rules_of g X <> [] \/ X = g_error g) /\
    forall q, In q (rules_of g X) -> exists c', In c' cur /\ ckey cs c' = (q, 0) /\
      (forall b, first_all g b (krest g (ckey cs c)) -> In b (c_fws (cfg cs c'))) /\
      (nullable_all g (krest g (ckey cs c)) -> In c' (c_fplp (cfg cs c))).

Record CI (B0 : list nat) (cs0 : list config) (cur : list nat) (cs : list config) : Prop := {
  ci_cur : exists n, cur = B0 ++ seq (List.length cs0) n /\ List.length cs = List.length cs0 + n;
  ci_grow : cgrow cs0 cs;
  ci_other : forall i, i < List.length cs0 -> ~ In i B0 -> cfg cs i = cfg cs0 i;
  ci_basis : forall i, In i B0 -> c_bplp (cfg cs i) = c_bplp (cfg cs0 i) /\
                                  c_complete (cfg cs i) = c_complete (cfg cs0 i);
  ci_new : forall i, In i cur -> ~ In i B0 ->
             c_dot (cfg cs i) = 0 /\ c_bplp (cfg cs i) = [] /\ c_complete (cfg cs i) = false;
  ci_nodup : NoDup (map (ckey cs) cur);
  ci_valid : forall i, In i cur -> kvalid g (ckey cs i);
  ci_reach : forall i, In i cur -> clo_reach g (fun k => In k (map (ckey cs0) B0)) (ckey cs i);
  ci_fws : forall i b, In i cur -> In b (c_fws (cfg cs i)) ->
    (In i B0 /\ In b (c_fws (cfg cs0 i))) \/
    (exists c, In c cur /\ kstep g (ckey cs c) (ckey cs i) /\ first_all g b (krest g (ckey cs c)));
  ci_fplp : forall i j, In i cur -> In j (c_fplp (cfg cs i)) ->
    (In i B0 /\ In j (c_fplp (cfg cs0 i))) \/
    (In j cur /\ kstep g (ckey cs i) (ckey cs j) /\ nullable_all g (krest g (ckey cs i))) }.

Lemma ci_range B0 cs0 cur cs i : CI B0 cs0 cur cs -> (forall i, In i B0 -> i < List.length cs0) ->
  In i cur -> i < List.length cs.
Proof.
  intros C HB Hi. destruct (ci_cur _ _ _ _ C) as (n & -> & Hl).
  apply in_app_or in Hi as [Hi|Hi]; [apply HB in Hi; lia|apply in_seq in Hi; lia].
Qed.

Lemma processed_mono cur cs cur' cs' c :
  cgrow cs cs' -> incl cur cur' -> c < List.length cs ->
  (forall i, In i cur -> i < List.length cs) ->
  processed cur cs c -> processed cur' cs' c.
Proof.
  intros G I Hc Hr P X. rewrite (cg_key _ _ G) by auto. intros HX HK.
  destruct (P X HX HK) as [P1 P2]. split; auto. intros q Hq.
  destruct (P2 q Hq) as (c' & Hin & Hk & H1 & H2). exists c'.
  split; [now apply I|]. split; [rewrite (cg_key _ _ G); auto|].
  split.
  - intros b Hb. apply (cg_fws _ _ G); auto.
  - intros Hn. apply (cg_fplp _ _ G); auto.
Qed.

(** One rule *)
Lemma closure_rule_spec B0 cs0 cur cs cfp X q cur' cs' :
  CI B0 cs0 cur cs -> (forall i, In i B0 -> i < List.length cs0) ->
  (forall i, In i B0 -> ckey cs0 i = ckey cs i) ->
  In cfp cur -> kpost g (ckey cs cfp) = Some X -> In q (rules_of g X) ->
  closure_rule g fi cfp (skipn (S (c_dot (cfg cs cfp))) (r_rhs (grule g (c_rule (cfg cs cfp))))) (cur, cs) q
    = (cur', cs') ->
  CI B0 cs0 cur' cs' /\ cgrow cs cs' /\ incl cur cur' /\
  exists c', In c' cur' /\ ckey cs' c' = (q, 0) /\
    (forall b, first_all g b (krest g (ckey cs cfp)) -> In b (c_fws (cfg cs' c'))) /\
    (nullable_all g (krest g (ckey cs cfp)) -> In c' (c_fplp (cfg cs' cfp))).
Proof.
  intros C HB HK Hcfp HX Hq H. unfold closure_rule in H.
  destruct (add_config cs cur q 0) as [[newcfp cur1] cs1] eqn:Ea.
  destruct (follow_rest g fi _ (c_fws (cfg cs1 newcfp))) as [fws broken] eqn:Ef.
  set (k := ckey cs cfp) in *.
  assert (Hrange : forall i, In i cur -> i < List.length cs) by (intros; eapply ci_range; eauto).
  assert (Hkv : kvalid g k) by (eapply ci_valid; eauto).
  assert (Hrest : map fst (skipn (S (c_dot (cfg cs cfp))) (r_rhs (grule g (c_rule (cfg cs cfp))))) = krest g k)
    by reflexivity.
  apply follow_rest_spec in Ef as [Ef1 Ef2].
  2:{ rewrite Hrest. intros Y HY. apply krest_in in HY as (ru & Hru & HY); auto.
      eapply rhs_in; eauto. }
  rewrite Hrest in Ef1, Ef2. clear Hrest.
  assert (Hstep : kstep g k (q, 0)) by (exists X; auto).
  (* facts about the state after add_config, common to its two cases *)
  assert (A : CI B0 cs0 cur1 cs1 /\ cgrow cs cs1 /\ incl cur cur1 /\ In newcfp cur1 /\
              ckey cs1 newcfp = (q, 0) /\ newcfp < List.length cs1).
  { apply add_config_spec in Ea as [(Hi & -> & -> & Hk)|(Hi & -> & -> & Hno)].
    - splits; auto using cgrow_refl, incl_refl.
    - assert (G1 : cgrow cs (cs ++ [mkCfg q 0 [] [] [] false])) by apply cgrow_app.
      assert (Hnew : cfg (cs ++ [mkCfg q 0 [] [] [] false]) newcfp = mkCfg q 0 [] [] [] false)
        by (rewrite Hi; apply cfg_app_new).
      assert (Hknew : ckey (cs ++ [mkCfg q 0 [] [] [] false]) newcfp = (q, 0)).
      { unfold ckey. now rewrite Hnew. }
      assert (Hold : forall i, In i cur -> cfg (cs ++ [mkCfg q 0 [] [] [] false]) i = cfg cs i).
      { intros i Hi'. apply cfg_app_l. auto. }
      assert (Hkold : forall i, In i cur -> ckey (cs ++ [mkCfg q 0 [] [] [] false]) i = ckey cs i).
      { intros i Hi'. unfold ckey. now rewrite Hold. }
      split; [|split; [|split; [|split; [|split]]]]; auto.
      2:{ intros i Hi'. apply in_or_app. now left. }
      2:{ apply in_or_app. right. now left. }
      2:{ rewrite app_length; simpl. lia. }
      pose proof (cg_len _ _ (ci_grow _ _ _ _ C)) as Hlen0.
      destruct C as [C1 C2 C3 C4 C5 C6 C7 C8 C9 C10]. constructor.
      + destruct C1 as (n & -> & Hl). exists (S n). split.
        * rewrite <- app_assoc. f_equal. rewrite seq_S. f_equal. f_equal. lia.
        * rewrite app_length; simpl. lia.
      + eapply cgrow_trans; eauto.
      + intros i Hi1 Hi2. rewrite cfg_app_l by lia. auto.
      + intros i Hi1. rewrite cfg_app_l; auto. apply HB in Hi1. lia.
      + intros i Hi1 Hi2. apply in_app_or in Hi1 as [Hi1|[<-|[]]].
        * rewrite Hold by auto. auto.
        * rewrite Hnew. auto.
      + rewrite map_app. simpl. rewrite Hknew.
        rewrite (map_ext_in _ (ckey cs)) by auto.
        apply NoDup_rev in C6. rewrite <- (rev_involutive (_ ++ _)). apply NoDup_rev.
        rewrite rev_app_distr. simpl. constructor; auto.
        rewrite <- in_rev. intros Hin. apply in_map_iff in Hin as (c & Hc & Hin). eapply Hno; eauto.
      + intros i Hi1. apply in_app_or in Hi1 as [Hi1|[<-|[]]].
        * rewrite Hkold by auto. auto.
        * rewrite Hknew. eapply kstep_valid; eauto.
      + intros i Hi1. apply in_app_or in Hi1 as [Hi1|[<-|[]]].
        * rewrite Hkold by auto. auto.
        * rewrite Hknew. eapply cr_step; [|eauto]. now apply C8.
      + intros i b Hi1 Hb. apply in_app_or in Hi1 as [Hi1|[<-|[]]].
        * rewrite Hold in Hb by auto. rewrite Hkold by auto.
          destruct (C9 i b Hi1 Hb) as [?|(c & H1 & H2 & H3)]; auto.
          right. exists c. rewrite Hkold by auto. split; auto. apply in_or_app. now left.
        * rewrite Hnew in Hb. contradiction.
      + intros i j Hi1 Hb. apply in_app_or in Hi1 as [Hi1|[<-|[]]].
        * rewrite Hold in Hb by auto. rewrite Hkold by auto.
          destruct (C10 i j Hi1 Hb) as [?|(H1 & H2 & H3)]; auto.
          right. rewrite Hkold by auto. split; auto. apply in_or_app. now left.
        * rewrite Hnew in Hb. contradiction. }
  destruct A as (C1 & G1 & I1 & Hin1 & Hk1 & Hl1).
  assert (Hkcfp : ckey cs1 cfp = k) by (apply (cg_key _ _ G1); auto).
  assert (Hcfp1 : cfp < List.length cs1) by (pose proof (cg_len _ _ G1); pose proof (Hrange _ Hcfp); lia).
  assert (Hrange1 : forall i, In i cur1 -> i < List.length cs1) by (intros; eapply ci_range; eauto).
  clear C. clear Ea.
  set (cs2 := upd cs1 newcfp (cfg_set_fws fws)) in *.
  assert (Hnc2 : cfg cs2 newcfp = cfg_set_fws fws (cfg cs1 newcfp)) by (apply cfg_upd_same; auto).
  assert (Ho2 : forall i, i <> newcfp -> cfg cs2 i = cfg cs1 i) by (intros; apply cfg_upd_other; auto).
  assert (Hk2 : forall i, ckey cs2 i = ckey cs1 i).
  { intros i. unfold ckey. destruct (Nat.eq_dec i newcfp) as [->|Hn].
    - rewrite Hnc2. reflexivity.
    - rewrite Ho2; auto. }
  assert (G2 : cgrow cs1 cs2).
  { apply cgrow_upd; auto. intros _. split; [|split]; try apply incl_refl.
    intros b Hb. simpl. apply Ef1. now left. }
  assert (C2 : CI B0 cs0 cur1 cs2).
  { destruct C1 as [D1 D2 D3 D4 D5 D6 D7 D8 D9 D10]. constructor.
    - unfold cs2. rewrite upd_length. auto.
    - eapply cgrow_trans; eauto.
    - intros i Hi1 Hi2. rewrite Ho2; auto. intros ->. apply Hi2.
      destruct D1 as (n & Hc & Hl). rewrite Hc in Hin1. apply in_app_or in Hin1 as [?|Hin1]; auto.
      apply in_seq in Hin1. lia.
    - intros i Hi1. destruct (Nat.eq_dec i newcfp) as [->|Hn].
      + rewrite Hnc2. simpl. auto.
      + rewrite Ho2; auto.
    - intros i Hi1 Hi2. destruct (Nat.eq_dec i newcfp) as [->|Hn].
      + rewrite Hnc2. simpl. auto.
      + rewrite Ho2; auto.
    - rewrite (map_ext _ (ckey cs1)); auto.
    - intros i Hi1. rewrite Hk2. auto.
    - intros i Hi1. rewrite Hk2. auto.
    - intros i b Hi1 Hb. rewrite Hk2. destruct (Nat.eq_dec i newcfp) as [->|Hn].
      + rewrite Hnc2 in Hb. simpl in Hb. apply Ef1 in Hb as [Hb|Hb].
        * destruct (D9 _ _ Hi1 Hb) as [?|(c & H1 & H2 & H3)]; auto. right. exists c. rewrite Hk2. auto.
        * right. exists cfp. rewrite Hk2, Hkcfp, Hk1. split; auto.
      + rewrite Ho2 in Hb by auto. destruct (D9 _ _ Hi1 Hb) as [?|(c & H1 & H2 & H3)]; auto.
        right. exists c. rewrite Hk2. auto.
    - intros i j Hi1 Hb. rewrite !Hk2.
      assert (Hb' : In j (c_fplp (cfg cs1 i))).
      { destruct (Nat.eq_dec i newcfp) as [->|Hn]; [now rewrite Hnc2 in Hb|now rewrite Ho2 in Hb]. }
      eapply D10; eauto. }
  assert (Hfws2 : forall b, first_all g b (krest g k) -> In b (c_fws (cfg cs2 newcfp))).
  { intros b Hb. rewrite Hnc2. simpl. apply Ef1. now right. }
  assert (Hfwl : forall i, cfp < List.length (upd cs1 i (cfg_set_fws fws))) by (intros; rewrite upd_length; auto).
  destruct broken.
  - inversion H; subst cur' cs'. split; auto. split; [eapply cgrow_trans; eauto|]. split; auto.
    exists newcfp. split; auto. split; [rewrite Hk2; auto|]. split; auto.
    intros Hn. apply Ef2 in Hn. discriminate.
  - inversion H; subst cur' cs'. clear H.
    assert (Hn : nullable_all g (krest g k)) by now apply Ef2.
    set (cs3 := upd cs2 cfp (cfg_add_fplp newcfp)) in *.
    assert (Hlc2 : cfp < List.length cs2) by (unfold cs2; rewrite upd_length; auto).
    assert (Hcf3 : cfg cs3 cfp = cfg_add_fplp newcfp (cfg cs2 cfp)) by (apply cfg_upd_same; auto).
    assert (Ho3 : forall i, i <> cfp -> cfg cs3 i = cfg cs2 i) by (intros; apply cfg_upd_other; auto).
    assert (Hk3 : forall i, ckey cs3 i = ckey cs2 i).
    { intros i. unfold ckey. destruct (Nat.eq_dec i cfp) as [->|Hne].
      - rewrite Hcf3. reflexivity.
      - rewrite Ho3; auto. }
    assert (Hw3 : forall i, c_fws (cfg cs3 i) = c_fws (cfg cs2 i)).
    { intros i. destruct (Nat.eq_dec i cfp) as [->|Hne]; [now rewrite Hcf3|now rewrite Ho3]. }
    assert (G3 : cgrow cs2 cs3).
    { apply cgrow_upd; auto. intros _. split; [|split]; try apply incl_refl.
      intros b Hb. simpl. apply in_or_app. now left. }
    split; [|split; [|split]]; auto.
    2:{ eapply cgrow_trans; [eauto|]. eapply cgrow_trans; eauto. }
    2:{ exists newcfp. split; auto. split; [rewrite Hk3, Hk2; auto|]. split.
        - intros b Hb. rewrite Hw3. auto.
        - intros _. rewrite Hcf3. simpl. apply in_or_app. right. now left. }
    destruct C2 as [D1 D2 D3 D4 D5 D6 D7 D8 D9 D10]. constructor.
    + unfold cs3. rewrite upd_length. auto.
    + eapply cgrow_trans; eauto.
    + intros i Hi1 Hi2. rewrite Ho3; auto. intros ->. apply Hi2.
      destruct D1 as (n & Hc & Hl). apply I1 in Hcfp. rewrite Hc in Hcfp. apply in_app_or in Hcfp as [?|Hin2]; auto.
      apply in_seq in Hin2. lia.
    + intros i Hi1. destruct (Nat.eq_dec i cfp) as [->|Hne].
      * rewrite Hcf3. simpl. auto.
      * rewrite Ho3; auto.
    + intros i Hi1 Hi2. destruct (Nat.eq_dec i cfp) as [->|Hne].
      * rewrite Hcf3. simpl. auto.
      * rewrite Ho3; auto.
    + rewrite (map_ext _ (ckey cs2)); auto.
    + intros i Hi1. rewrite Hk3. auto.
    + intros i Hi1. rewrite Hk3. auto.
    + intros i b Hi1 Hb. rewrite Hk3. rewrite Hw3 in Hb.
      destruct (D9 _ _ Hi1 Hb) as [?|(c & H1 & H2 & H3)]; auto. right. exists c. rewrite Hk3. auto.
    + intros i j Hi1 Hb. rewrite !Hk3. destruct (Nat.eq_dec i cfp) as [->|Hne].
      * rewrite Hcf3 in Hb. simpl in Hb. apply in_app_or in Hb as [Hb|[<-|[]]].
        -- destruct (D10 _ _ Hi1 Hb) as [?|(H1 & H2 & H3)]; auto.
        -- right. rewrite !Hk2, Hkcfp, Hk1. auto.
      * rewrite Ho3 in Hb by auto. destruct (D10 _ _ Hi1 Hb) as [?|(H1 & H2 & H3)]; auto.
Qed.

(** All rules of the expanded non-terminal *)
Lemma closure_rules_spec B0 cs0 cfp X k : 
  (forall i, In i B0 -> i < List.length cs0) ->
  forall qs cur cs cur' cs',
  CI B0 cs0 cur cs -> In cfp cur -> ckey cs cfp = k -> kpost g k = Some X -> incl qs (rules_of g X) ->
  fold_left (closure_rule g fi cfp (skipn (S (snd k)) (r_rhs (grule g (fst k))))) qs (cur, cs) = (cur', cs') ->
  CI B0 cs0 cur' cs' /\ cgrow cs cs' /\ incl cur cur' /\
  forall q, In q qs -> exists c', In c' cur' /\ ckey cs' c' = (q, 0) /\
    (forall b, first_all g b (krest g k) -> In b (c_fws (cfg cs' c'))) /\
    (nullable_all g (krest g k) -> In c' (c_fplp (cfg cs' cfp))).
Proof.
  intros HB. induction qs as [|q qs IH]; intros cur cs cur' cs' C Hcfp Hk HX Hqs H; cbn [fold_left] in H.
  - inversion H; subst. splits; auto using cgrow_refl, incl_refl. contradiction.
  - destruct (closure_rule _ _ _ _ _ _) as [cur1 cs1] eqn:E.
    subst k. 
    eapply closure_rule_spec in E as (C1 & G1 & I1 & c' & Hc1 & Hc2 & Hc3 & Hc4); eauto.
    2:{ intros i Hi. symmetry. apply (cg_key _ _ (ci_grow _ _ _ _ C)). auto. }
    2:{ apply Hqs. now left. }
    assert (Hcl : cfp < List.length cs) by (eapply ci_range; eauto).
    assert (Hcl1 : cfp < List.length cs1) by (pose proof (cg_len _ _ G1); lia).
    apply IH in H as (C2 & G2 & I2 & H2); auto.
    2:{ apply (cg_key _ _ G1). auto. }
    2:{ intros x Hx. apply Hqs. now right. }
    split; auto. split; [eapply cgrow_trans; eauto|]. split; [eapply incl_tran; eauto|].
    intros q' [<-|Hq']; auto.
    assert (Hcr : c' < List.length cs1) by (eapply ci_range; eauto).
    exists c'. split; auto. split; [rewrite (cg_key _ _ G2); auto|]. split.
    + intros b Hb. apply (cg_fws _ _ G2); auto.
    + intros Hn. apply (cg_fplp _ _ G2); auto.
Qed.

Lemma closure_loop_spec B0 cs0 : (forall i, In i B0 -> i < List.length cs0) ->
  forall fuel i cur cs cur' cs',
  CI B0 cs0 cur cs ->
  (forall j c, j < i -> nth_error cur j = Some c -> processed cur cs c) ->
  closure_loop fuel g fi i cur cs = GOk (cur', cs') ->
  CI B0 cs0 cur' cs' /\ incl cur cur' /\ forall c, In c cur' -> processed cur' cs' c.
Proof.
  intros HB. induction fuel as [|n IH]; intros i cur cs cur' cs' C P H; [discriminate|].
  cbn [closure_loop] in H.
  assert (Hrange : forall i, In i cur -> i < List.length cs) by (intros; eapply ci_range; eauto).
  destruct (nth_error cur i) as [cfp|] eqn:Ei.
  2:{ inversion H; subst. split; auto. split; auto using incl_refl. intros c Hc.
      apply In_nth_error in Hc as [j Hj].
      eapply P; eauto. apply nth_error_None in Ei.
      assert (j < List.length cur') by (apply nth_error_Some; congruence). lia. }
  assert (Hcfp : In cfp cur) by (eapply nth_error_In; eauto).
  assert (Hskip : closure_loop n g fi (S i) cur cs = GOk (cur', cs') -> processed cur cs cfp ->
     CI B0 cs0 cur' cs' /\ incl cur cur' /\ forall c, In c cur' -> processed cur' cs' c).
  { intros H' P'. apply IH in H'; auto. intros j c Hj Hc.
    destruct (Nat.eq_dec j i) as [->|Hne]; [|eapply P; eauto; lia].
    assert (c = cfp) by congruence. now subst c. }
  destruct (nth_error (r_rhs (grule g (c_rule (cfg cs cfp)))) (c_dot (cfg cs cfp))) as [[sp al]|] eqn:Ed.
  2:{ apply Hskip; auto. intros X HX. unfold kpost, ckey in HX. cbn [fst snd] in HX. rewrite Ed in HX. discriminate. }
  assert (Hpost : kpost g (ckey cs cfp) = Some sp).
  { unfold kpost, ckey. cbn [fst snd]. rewrite Ed. reflexivity. }
  assert (Hsp : sp < List.length (g_syms g)).
  { destruct (kpost_in g (ckey cs cfp) sp) as (ru & Hru & Hin); auto; [eapply ci_valid; eauto|].
    eapply rhs_in; eauto. }
  destruct (sy_kind (gsym g sp)) eqn:Ek.
  1,3: apply Hskip; auto; intros X HX HN; rewrite Hpost in HX; inversion HX; subst X;
       apply kind_at_gsym in HN; congruence.
  destruct (rules_of g sp) as [|q0 qs0] eqn:Er.
  - destruct (Nat.eqb_spec sp (g_error g)) as [Ee|Ee]; [|discriminate].
    apply Hskip; auto. intros X HX HN. rewrite Hpost in HX; inversion HX; subst X.
    split; auto. rewrite Er. contradiction.
  - rewrite <- Er in H. destruct (fold_left _ _ _) as [cur1 cs1] eqn:Ef.
    eapply (closure_rules_spec B0 cs0 cfp sp (ckey cs cfp)) in Ef as (C1 & G1 & I1 & H1); eauto using incl_refl.
    assert (Hn1 : forall j c, j <= i -> nth_error cur1 j = Some c -> nth_error cur j = Some c).
    { intros j c Hj Hc. destruct (ci_cur _ _ _ _ C) as (n0 & Hc0 & Hl0).
      destruct (ci_cur _ _ _ _ C1) as (n1 & Hc1 & Hl1).
      assert (Hil : i < List.length cur) by (apply nth_error_Some; congruence).
      pose proof (cg_len _ _ G1) as Hl.
      rewrite Hc1 in Hc. rewrite Hc0 in *. rewrite app_length, seq_length in Hil.
      destruct (Nat.lt_ge_cases j (List.length B0)) as [Hlt|Hge].
      - rewrite nth_error_app1 in * by auto. auto.
      - rewrite nth_error_app2 in * by auto.
        replace n1 with (n0 + (n1 - n0)) in Hc by lia. rewrite seq_app in Hc.
        rewrite nth_error_app1 in Hc by (rewrite seq_length; lia). auto. }
    apply IH in H as (C2 & I2 & P2); auto.
    + split; auto. split; auto. eapply incl_tran; eauto.
    + intros j c Hj Hc. apply Hn1 in Hc; [|lia].
      destruct (Nat.eq_dec j i) as [->|Hne].
      * assert (c = cfp) by congruence. subst c.
        intros X. rewrite (cg_key _ _ G1) by auto. rewrite Hpost. intros HX HN. inversion HX; subst X.
        split; [left; congruence|]. intros q Hq.
        destruct (H1 q Hq) as (c' & Hc1 & Hc2 & Hc3 & Hc4). exists c'. auto.
      * eapply processed_mono; eauto.
        -- apply Hrange. eapply nth_error_In; eauto.
        -- eapply P; eauto. lia.
Qed.
End Closure.
