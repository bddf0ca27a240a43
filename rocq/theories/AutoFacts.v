(** The automaton with its lookaheads, as an interface: [Aut] is all that later files
    use about states and follow sets.  Then C14: the lookaheads are the LALR(1) ones. *)
From Verif Require Import Base Syntax BaseFacts FrontEnd First States Spec WfGrammar FirstFacts
  ClosureFacts StatesFacts DfsFacts FollowFacts.

Section Auto.
Context (g : grammar) (fi : firsts) (W : wf_grammar g) (F : fi_ok g fi).

Definition item (p : pst) (s : nat) (k : key) : Prop :=
  exists st c, nth_error (p_states p) s = Some st /\ In c (s_configs st) /\ ckey (p_cfgs p) c = k.

Definition look (p : pst) (s : nat) (k : key) (b : nat) : Prop :=
  exists st c, nth_error (p_states p) s = Some st /\ In c (s_configs st) /\ ckey (p_cfgs p) c = k /\
    In b (c_fws (cfg (p_cfgs p) c)).

Definition edge (p : pst) (s X t : nat) : Prop :=
  exists st st', nth_error (p_states p) s = Some st /\ nth_error (p_states p) t = Some st' /\
    has_post g (p_cfgs p) (s_configs st) X /\ goto_keys g (p_cfgs p) (s_configs st) X (s_basis st').

(** The lookaheads by propagation rules. *)
Inductive spread (p : pst) : nat -> key -> nat -> Prop :=
| sp_start r : In r (rules_of g (g_start g)) -> spread p 0 (r, 0) 0
| sp_first s k k' b : item p s k -> kstep g k k' -> first_all g b (krest g k) -> spread p s k' b
| sp_null s k k' b : spread p s k b -> kstep g k k' -> nullable_all g (krest g k) -> spread p s k' b
| sp_goto s k X t b : spread p s k b -> kpost g k = Some X -> edge p s X t -> spread p t (kadv k) b.

(** Items of a state that are not there because of the closure. *)
Definition kernel (p : pst) (s : nat) (k : key) : Prop :=
  item p s k /\ (snd k <> 0 \/ (s = 0 /\ snd k = 0 /\ In (fst k) (rules_of g (g_start g)))).

Record Aut (p : pst) : Prop := {
  au_pos : 0 < List.length (p_states p);
  au_range : forall s k, item p s k -> s < List.length (p_states p);
  au_start : forall r, In r (rules_of g (g_start g)) -> item p 0 (r, 0);
  au_valid : forall s k, item p s k -> kvalid g k;
  au_close : forall s k k', item p s k -> kstep g k k' -> item p s k';
  au_rules : forall s k X, item p s k -> kpost g k = Some X -> kind_at g X = Some KNonTerm ->
    rules_of g X <> [] \/ X = g_error g;
  au_reach : forall s k, item p s k -> clo_reach g (kernel p s) k;
  au_next : forall s k X, item p s k -> kpost g k = Some X -> exists t, edge p s X t;
  au_goto : forall s k X t, edge p s X t -> item p s k -> kpost g k = Some X -> item p t (kadv k);
  au_back : forall s X t k, edge p s X t -> item p t k -> snd k <> 0 ->
    exists k0, item p s k0 /\ kpost g k0 = Some X /\ k = kadv k0;
  au_edge : forall s X t, edge p s X t -> t < List.length (p_states p) /\
    exists k, item p s k /\ kpost g k = Some X;
  au_dot : forall k, item p 0 k -> snd k = 0;
  au_fun : forall s X t t', edge p s X t -> edge p s X t' -> t = t';
  au_pred : forall s, s < List.length (p_states p) -> s = 0 \/ exists s' X, s' < s /\ edge p s' X s;
  au_look : forall s k b, look p s k b <-> spread p s k b;
  au_uniq : forall s s', s < List.length (p_states p) -> s' < List.length (p_states p) ->
    (forall k, item p s k <-> item p s' k) -> s = s';
  au_nostart : forall r ru X al, nth_error (g_rules g) r = Some ru -> In (X, al) (r_rhs ru) -> X <> g_start g;
  au_acts : forall s st, nth_error (p_states p) s = Some st -> exists lst,
    s_actions st = acts_of g lst /\ NoDup (map fst lst) /\ forall X t, In (X, t) lst <-> edge p s X t;
  au_keys : forall s st, nth_error (p_states p) s = Some st ->
    NoDup (map (ckey (p_cfgs p)) (s_configs st)) }.

(** ** From [find_states] to [Aut] *)
Section Main.
Context (p0 p : pst) (fuel fuel' : nat).
Hypothesis (H0 : find_states fuel g fi = GOk p0).
Hypothesis (H2 : find_follow_sets fuel' (find_links p0) = GOk p).

Let I0 : Inv g p0. Proof. apply (find_states_spec g fi W F fuel p0 H0). Qed.

Lemma links_closed i q : In i (all_configs (find_links p0)) ->
  In q (c_fplp (cfg (p_cfgs (find_links p0)) i)) -> In q (all_configs (find_links p0)).
Proof.
  destruct (find_links_spec p0) as (L1 & L2 & L3 & L4). intros Hi Hq.
  unfold all_configs in *. rewrite L1 in *. apply L4 in Hq as [Hq|[Hq _]]; auto.
  apply in_flat_map in Hi as (st & Hst & Hc). apply In_nth_error in Hst as [s Hs].
  apply in_flat_map. exists st. split; [eapply nth_error_In; eauto|].
  eapply (si_fplp g _ _ _ _ (iv_si g _ I0 s st Hs)); eauto.
Qed.

Lemma final_same : p_states p = p_states p0 /\
  (forall i, ckey (p_cfgs p) i = ckey (p_cfgs p0) i) /\
  (forall i, In i (all_configs p0) -> forall b, In b (c_fws (cfg (p_cfgs p) i)) <-> la (find_links p0) i b).
Proof.
  destruct (find_links_spec p0) as (L1 & L2 & L3 & L4).
  apply find_follow_sets_spec in H2 as (A1 & A2 & A3 & A4).
  - splits; [congruence| |].
    + intros i. rewrite A3. apply L3.
    + intros i Hi. apply A4. unfold all_configs in *. now rewrite L1.
  - intros i. unfold all_configs. rewrite L1, L2. apply (iv_range g _ I0).
  - apply links_closed.
Qed.

Lemma aut_main : Aut p.
Proof.
  destruct (find_states_spec g fi W F fuel p0 H0) as (I & Hpos & Hdone & Hns).
  destruct final_same as (ES & EK & EF).
  assert (EKm : forall l, map (ckey (p_cfgs p)) l = map (ckey (p_cfgs p0)) l) by (intros; apply map_ext; auto).
  assert (HSI : forall s st, nth_error (p_states p) s = Some st -> SI g (p_cfgs p0) (s =? 0) (s_configs st) (s_basis st)).
  { intros s st Hs. rewrite ES in Hs. apply (iv_si g _ I); auto. }
  assert (EG : forall L X B, goto_keys g (p_cfgs p) L X B <-> goto_keys g (p_cfgs p0) L X B).
  { intros. unfold goto_keys. rewrite EKm. split; intros G k; rewrite (G k); split; intros (c & ? & ? & ?); exists c;
      rewrite EK in *; auto. }
  assert (EP : forall L X, has_post g (p_cfgs p) L X <-> has_post g (p_cfgs p0) L X).
  { intros. unfold has_post. split; intros (c & ? & ?); exists c; rewrite EK in *; auto. }
  assert (Edge : forall s X t, edge p s X t <-> exists st st', nth_error (p_states p0) s = Some st /\
     nth_error (p_states p0) t = Some st' /\ has_post g (p_cfgs p0) (s_configs st) X /\
     goto_keys g (p_cfgs p0) (s_configs st) X (s_basis st')).
  { intros. unfold edge. rewrite ES. split; intros (st & st' & ? & ? & Hp & Hg); exists st, st';
      rewrite EP, EG in *; auto. }
  assert (Item : forall s k, item p s k <-> exists st c, nth_error (p_states p0) s = Some st /\
     In c (s_configs st) /\ ckey (p_cfgs p0) c = k).
  { intros. unfold item. rewrite ES. split; intros (st & c & ? & ? & ?); exists st, c; rewrite EK in *; auto. }
  rewrite <- ES in Hpos.
  assert (Efun : forall s X t t', edge p s X t -> edge p s X t' -> t = t').
  { intros s X t t' E1 E2. apply Edge in E1 as (st & st1 & A1 & A2 & _ & A4).
    apply Edge in E2 as (st' & st2 & B1 & B2 & _ & B4). rewrite A1 in B1. inversion B1; subst st'.
    eapply (iv_uniq g _ I); eauto.
    destruct (iv_sorted g _ I _ _ A2), (iv_sorted g _ I _ _ B2).
    apply sorted_nodup_unique; auto. intros k. rewrite (A4 k), (B4 k). tauto. }
  assert (Eto : forall s X t st', edge p s X t -> nth_error (p_states p0) t = Some st' ->
     forall c, In c (s_basis st') -> snd (ckey (p_cfgs p0) c) <> 0).
  { intros s X t st' E Ht c Hc. apply Edge in E as (st & st1 & A1 & A2 & _ & A4).
    rewrite A2 in Ht. inversion Ht; subst st1.
    assert (Hk : In (ckey (p_cfgs p0) c) (map (ckey (p_cfgs p0)) (s_basis st'))) by now apply in_map.
    apply A4 in Hk as (c0 & _ & _ & ->). simpl. lia. }
  assert (Pred : forall s st, nth_error (p_states p0) s = Some st ->
    (s = 0 /\ start_keys g (map (ckey (p_cfgs p0)) (s_basis st))) \/ (exists s' X, s' < s /\ edge p s' X s)).
  { intros s st Hs. destruct (iv_pred g _ I s st Hs) as [[? ?]|(s' & st' & X & A1 & A2 & A3 & A4)]; auto.
    right. exists s', X. split; auto. apply Edge. exists st', st. auto. }
  assert (Zero : forall st, nth_error (p_states p0) 0 = Some st -> start_keys g (map (ckey (p_cfgs p0)) (s_basis st))).
  { intros st Hs. destruct (Pred _ _ Hs) as [[_ ?]|(s' & X & Hl & _)]; auto. lia. }
  assert (NZ : forall s X, ~ edge p s X 0).
  { intros s X E. pose proof E as E'. apply Edge in E as (st & st1 & A1 & A2 & (c & Hc1 & Hc2) & A4).
    assert (Hk : In (kadv (ckey (p_cfgs p0) c)) (map (ckey (p_cfgs p0)) (s_basis st1))).
    { apply A4. exists c. auto. }
    apply (Zero _ A2) in Hk as (r & _ & Hk). inversion Hk. }
  assert (Acts : forall s st, nth_error (p_states p) s = Some st -> exists lst,
    s_actions st = acts_of g lst /\ NoDup (map fst lst) /\ forall X t, In (X, t) lst <-> edge p s X t).
  { intros s st Hs. rewrite ES in Hs. destruct (Hdone s) as (st' & lst & D1 & D2 & D3 & D4 & D5).
    { apply nth_error_Some. congruence. }
    rewrite Hs in D1. inversion D1; subst st'. exists lst. splits; auto.
    assert (Fw : forall X t, In (X, t) lst -> edge p s X t).
    { intros X t Hin. destruct (D5 X t Hin) as (st' & E1 & E2 & _). apply Edge. exists st, st'. splits; auto.
      apply D4. apply in_map_iff. exists (X, t). auto. }
    intros X t. split; auto. intros E.
    assert (HX : In X (map fst lst)).
    { apply Edge in E as (st1 & st2 & B1 & _ & B3 & _). rewrite Hs in B1. inversion B1; subst st1. apply D4. auto. }
    apply in_map_iff in HX as ([X' t'] & HX & Hin). simpl in HX. subst X'.
    rewrite (Efun s X t t'); auto. }
  assert (Goto : forall s k X t, edge p s X t -> item p s k -> kpost g k = Some X -> item p t (kadv k)).
  { intros s k X t E Hi Hk. apply Edge in E as (st & st1 & A1 & A2 & _ & A4).
    apply Item in Hi as (st' & c & B1 & B2 & B3). rewrite A1 in B1. inversion B1; subst st'.
    assert (Hin : In (kadv k) (map (ckey (p_cfgs p0)) (s_basis st1))).
    { apply A4. exists c. rewrite B3. auto. }
    apply in_map_iff in Hin as (c' & E1 & E2). apply Item. exists st1, c'. splits; auto.
    rewrite <- ES in A2. apply (si_basis g _ _ _ _ (HSI _ _ A2)). auto. }
  assert (Bas : forall s st c, nth_error (p_states p0) s = Some st -> In c (s_basis st) ->
     snd (ckey (p_cfgs p0) c) <> 0 \/
     (s = 0 /\ snd (ckey (p_cfgs p0) c) = 0 /\ In (fst (ckey (p_cfgs p0) c)) (rules_of g (g_start g)))).
  { intros s st c Hs Hc. destruct (Pred _ _ Hs) as [[-> Hst]|(s' & X & _ & E)].
    - right. assert (Hk : In (ckey (p_cfgs p0) c) (map (ckey (p_cfgs p0)) (s_basis st))) by now apply in_map.
      apply Hst in Hk as (r & Hr & ->). auto.
    - left. eapply Eto; eauto. }
  assert (Close : forall s k k', item p s k -> kstep g k k' -> item p s k').
  { intros s k [q d] Hi (X & HX & Hq & Hd). apply Item in Hi as (st & c & A1 & A2 & A3). simpl in *. subst d.
    rewrite <- ES in A1. assert (HK : kind_at g X = Some KNonTerm).
    { apply in_rules_of in Hq as (ru & Hr & <-). now apply (wg_rule g W) in Hr as [? _]. }
    rewrite <- A3 in HX. destruct (si_proc g _ _ _ _ (HSI _ _ A1) c A2 X HX HK) as [_ HP].
    destruct (HP q Hq) as (c' & Hc' & Hk' & _). apply Item. exists st, c'. rewrite <- ES. auto. }
  assert (Own : forall s st c, nth_error (p_states p) s = Some st -> In c (s_configs st) -> In c (all_configs p0)).
  { intros s st c Hs Hc. rewrite ES in Hs. eapply own_in; eauto. }
  assert (KeyInj : forall s st c c', nth_error (p_states p) s = Some st -> In c (s_configs st) -> In c' (s_configs st) ->
     ckey (p_cfgs p0) c = ckey (p_cfgs p0) c' -> c = c').
  { intros s st c c' Hs Hc Hc' He. pose proof (si_keys g _ _ _ _ (HSI _ _ Hs)) as ND.
    clear -ND Hc Hc' He. induction (s_configs st) as [|a l IH]; [contradiction|]. simpl in ND.
    inversion ND as [|? ? Hn ND']; subst. destruct Hc as [->|Hc], Hc' as [->|Hc']; auto.
    - exfalso. apply Hn. rewrite He. now apply in_map.
    - exfalso. apply Hn. rewrite <- He. now apply in_map. }
  constructor; auto.
  - intros s k (st & c & Hs & _). apply nth_error_Some. congruence.
  - intros r Hr. destruct (nth_error (p_states p0) 0) as [st|] eqn:Hs.
    + pose proof (Zero st eq_refl (r, 0)) as [_ Hz]. destruct (proj1 (in_map_iff _ _ _) (Hz (ex_intro _ r (conj Hr eq_refl)))) as (c & Ec & Hc).
      apply Item. exists st, c. splits; auto. rewrite <- ES in Hs. apply (si_basis g _ _ _ _ (HSI _ _ Hs)). auto.
    + apply nth_error_None in Hs. rewrite ES in Hpos. lia.
  - intros s k Hi. apply Item in Hi as (st & c & A1 & A2 & <-). rewrite <- ES in A1.
    apply (si_valid g _ _ _ _ (HSI _ _ A1)); auto.
  - intros s k X Hi HX HK. apply Item in Hi as (st & c & A1 & A2 & <-). rewrite <- ES in A1.
    apply (si_proc g _ _ _ _ (HSI _ _ A1) c A2 X HX HK).
  - intros s k Hi. apply Item in Hi as (st & c & A1 & A2 & <-). pose proof A1 as A1'. rewrite <- ES in A1.
    eapply clo_reach_mono; [|apply (si_reach g _ _ _ _ (HSI _ _ A1)); auto].
    intros k Hk. apply in_map_iff in Hk as (b & <- & Hb). split.
    + apply Item. exists st, b. splits; auto. apply (si_basis g _ _ _ _ (HSI _ _ A1)). auto.
    + eapply Bas; eauto.
  - intros s k X Hi HX. pose proof Hi as (st & c & A1 & A2 & A3). destruct (Acts s st A1) as (lst & B1 & B2 & B3).
    destruct (Hdone s) as (st' & lst' & D1 & D2 & D3 & D4 & D5).
    { rewrite <- ES. apply nth_error_Some. congruence. }
    rewrite <- ES in D1. rewrite A1 in D1. inversion D1; subst st'.
    assert (HX' : In X (map fst lst')) by (apply D4; exists c; rewrite <- EK, A3; auto).
    apply in_map_iff in HX' as ([X' t] & HE & Hin). simpl in HE. subst X'. exists t.
    destruct (D5 X t Hin) as (st' & E1 & E2 & _). apply Edge. exists st, st'. rewrite <- ES. splits; auto; [rewrite ES; auto|].
    exists c. rewrite <- EK, A3. auto.
  - intros s X t k E Hi Hd. apply Item in Hi as (st & c & A1 & A2 & <-).
    apply Edge in E as (st1 & st2 & B1 & B2 & B3 & B4). rewrite A1 in B2. inversion B2; subst st2.
    assert (Hb : In c (s_basis st)).
    { destruct (in_dec Nat.eq_dec c (s_basis st)) as [?|Hn]; auto. exfalso. apply Hd.
      rewrite <- ES in A1. apply (si_dot g _ _ _ _ (HSI _ _ A1)); auto. }
    apply (in_map (ckey (p_cfgs p0))) in Hb. apply B4 in Hb as (c0 & C1 & C2 & C3).
    exists (ckey (p_cfgs p0) c0). splits; auto. apply Item. exists st1, c0. auto.
  - intros s X t E. apply Edge in E as (st1 & st2 & B1 & B2 & (c & C1 & C2) & B4). split.
    + rewrite ES. apply nth_error_Some. congruence.
    + exists (ckey (p_cfgs p0) c). split; auto. apply Item. exists st1, c. auto.
  - intros k Hi. apply Item in Hi as (st & c & A1 & A2 & <-).
    destruct (in_dec Nat.eq_dec c (s_basis st)) as [Hb|Hn].
    + apply (in_map (ckey (p_cfgs p0))) in Hb. apply (Zero _ A1) in Hb as (r & _ & ->). auto.
    + rewrite <- ES in A1. apply (si_dot g _ _ _ _ (HSI _ _ A1)); auto.
  - intros s Hs. rewrite ES in Hs. destruct (nth_error (p_states p0) s) as [st|] eqn:E;
      [|apply nth_error_None in E; lia].
    destruct (Pred _ _ E) as [[-> _]|?]; auto.
  - (* lookaheads *)
    destruct (find_links_spec p0) as (L1 & L2 & L3 & L4).
    assert (EA : all_configs (find_links p0) = all_configs p0) by (unfold all_configs; now rewrite L1).
    assert (Look : forall s k b, look p s k b <-> exists st c, nth_error (p_states p) s = Some st /\ In c (s_configs st) /\
        ckey (p_cfgs p0) c = k /\ la (find_links p0) c b).
    { intros s k b. split; intros (st & c & A1 & A2 & A3 & A4); exists st, c; rewrite EK in *; splits; auto;
        eapply EF; eauto. }
    assert (Disj : forall s s' st st' c, nth_error (p_states p) s = Some st -> nth_error (p_states p) s' = Some st' ->
        In c (s_configs st) -> In c (s_configs st') -> s = s').
    { pose proof (iv_nodup g _ I) as ND. unfold all_configs in ND. rewrite <- ES in ND.
      intros s s' st st' c. revert ND. generalize (p_states p) as l. clear. intros l. revert s s'.
      induction l as [|a l IH]; intros s s' ND Hs Hs' Hc Hc'; [destruct s; discriminate|].
      simpl in ND. apply nodup_app_iff in ND as (N1 & N2 & N3).
      destruct s, s'; simpl in *; auto.
      - inversion Hs; subst a. exfalso. eapply N3; eauto. apply in_flat_map. exists st'. split; auto. eapply nth_error_In; eauto.
      - inversion Hs'; subst a. exfalso. eapply N3; eauto. apply in_flat_map. exists st. split; auto. eapply nth_error_In; eauto. }
    intros s k b. rewrite Look. split.
    + intros (st & c & A1 & A2 & <- & A4). revert s st A1 A2. induction A4 as [c b Hc Hb|c q b Hla IH Hq]; intros s st A1 A2.
      * destruct (L3 c) as (_ & Lf & _). rewrite Lf in Hb.
        destruct (si_fws g _ _ _ _ (HSI _ _ A1) c b A2 Hb) as [(E1 & E2 & ->)|(c1 & E1 & E2 & E3)].
        -- apply Nat.eqb_eq in E1. subst s. rewrite ES in A1.
           apply (in_map (ckey (p_cfgs p0))) in E2. apply (Zero _ A1) in E2 as (r & Hr & ->). now apply sp_start.
        -- eapply sp_first; [|exact E2|exact E3]. apply Item. exists st, c1. rewrite <- ES. auto.
      * apply L4 in Hq as [Hq|(Hq & Hb & Hlt)].
        -- assert (Ho : In c (all_configs p0)).
           { rewrite <- EA. pose proof links_closed as Hcl. clear -Hla EA Hcl. induction Hla; auto. eauto. }
           unfold all_configs in Ho. apply in_flat_map in Ho as (st1 & Hst1 & Hc1). apply In_nth_error in Hst1 as [s1 Hs1].
           rewrite <- ES in Hs1.
           destruct (si_fplp g _ _ _ _ (HSI _ _ Hs1) c q Hc1 Hq) as (E1 & E2 & E3).
           assert (s1 = s) by (eapply Disj; eauto). subst s1.
           eapply sp_null; [|exact E2|exact E3]. eauto.
        -- pose proof A1 as A1'. rewrite ES in A1'.
           destruct (iv_bplp g _ I s st q c A1' A2 Hb) as (E1 & s1 & st1 & X & E2 & E3 & E4 & E5 & E6).
           rewrite E5. eapply sp_goto with (s := s1); [|exact E4|].
           ++ rewrite <- ES in E2. eauto.
           ++ apply Edge. exists st1, st. splits; auto. exists c. auto.
    + induction 1 as [r Hr|s k k' b Hi Hk Hf|s k k' b Hs IH Hk Hn|s k X t b Hs IH HX E].
      * destruct (nth_error (p_states p) 0) as [st|] eqn:E0; [|apply nth_error_None in E0; lia].
        pose proof E0 as E0'. rewrite ES in E0'.
        assert (Hb : In (r, 0) (map (ckey (p_cfgs p0)) (s_basis st))) by (apply (Zero _ E0'); eauto).
        apply in_map_iff in Hb as (c & Ec & Hc).
        pose proof (si_basis g _ _ _ _ (HSI _ _ E0) c Hc) as Hc'.
        exists st, c. splits; auto. apply la_base; [rewrite EA; eauto|]. destruct (L3 c) as (_ & -> & _).
        apply (si_start g _ _ _ _ (HSI _ _ E0)); auto.
      * apply Item in Hi as (st & c & A1 & A2 & <-). rewrite <- ES in A1.
        destruct k' as [q d]. destruct Hk as (X & HX & Hq & Hd). cbn [fst snd] in *. subst d.
        assert (HK : kind_at g X = Some KNonTerm).
        { pose proof Hq as Hq'. apply in_rules_of in Hq' as (ru & Hr & <-). now apply (wg_rule g W) in Hr as [? _]. }
        destruct (si_proc g _ _ _ _ (HSI _ _ A1) c A2 X HX HK) as [_ HP].
        destruct (HP q Hq) as (c' & Hc' & Hk' & Hfi & _). exists st, c'. splits; auto.
        apply la_base; [rewrite EA; eauto|]. destruct (L3 c') as (_ & -> & _). auto.
      * destruct IH as (st & c & A1 & A2 & <- & A4).
        destruct k' as [q d]. destruct Hk as (X & HX & Hq & Hd). cbn [fst snd] in *. subst d.
        assert (HK : kind_at g X = Some KNonTerm).
        { pose proof Hq as Hq'. apply in_rules_of in Hq' as (ru & Hr & <-). now apply (wg_rule g W) in Hr as [? _]. }
        destruct (si_proc g _ _ _ _ (HSI _ _ A1) c A2 X HX HK) as [_ HP].
        destruct (HP q Hq) as (c' & Hc' & Hk' & _ & Hl). exists st, c'. splits; auto.
        eapply la_link; [exact A4|]. apply L4. left. auto.
      * destruct IH as (st & c & A1 & A2 & <- & A4).
        destruct (Hdone s) as (st' & lst & D1 & D2 & D3 & D4 & D5).
        { rewrite <- ES. apply nth_error_Some. congruence. }
        rewrite <- ES in D1. rewrite A1 in D1. inversion D1; subst st'.
        assert (HX' : In X (map fst lst)) by (apply D4; exists c; auto).
        apply in_map_iff in HX' as ([X' t'] & HE & Hin). simpl in HE. subst X'.
        destruct (D5 X t' Hin) as (st' & E1 & E2 & E3).
        assert (t' = t).
        { apply (Efun s X); auto. apply Edge. exists st, st'. rewrite <- ES. splits; auto; [rewrite ES; auto|]. exists c. auto. }
        subst t'. destruct (E3 c A2 HX) as (c' & Q1 & Q2 & Q3). rewrite <- ES in E1.
        assert (Hc' : In c' (s_configs st')) by (apply (si_basis g _ _ _ _ (HSI _ _ E1)); auto).
        exists st', c'. splits; auto.
        eapply la_link; [exact A4|]. apply L4. right. splits; eauto. apply (iv_range g _ I). eauto.
  - intros s s' Hs Hs' HI. rewrite ES in Hs, Hs'.
    destruct (nth_error (p_states p0) s) as [st|] eqn:E; [|apply nth_error_None in E; lia].
    destruct (nth_error (p_states p0) s') as [st'|] eqn:E'; [|apply nth_error_None in E'; lia].
    assert (Dot : forall s s' st st' X s1, nth_error (p_states p0) s = Some st -> nth_error (p_states p0) s' = Some st' ->
      (forall k, item p s k <-> item p s' k) -> edge p s1 X s' -> s = 0 -> False).
    { clear -Edge NZ Goto Item EK ES Zero HSI. intros s s' st st' X s1 E E' HI Ed ->.
      pose proof Ed as Ed'. apply Edge in Ed as (st1 & st2 & B1 & B2 & (c & C1 & C2) & B4).
      assert (Hi : item p s' (kadv (ckey (p_cfgs p0) c))).
      { eapply Goto; eauto. apply Item. exists st1, c. auto. }
      apply HI in Hi. apply Item in Hi as (st3 & c3 & F1 & F2 & F3). rewrite F1 in E. inversion E; subst st3.
      destruct (in_dec Nat.eq_dec c3 (s_basis st)) as [Hb|Hn].
      + apply (in_map (ckey (p_cfgs p0))) in Hb. apply (Zero _ F1) in Hb as (r & _ & Hk). rewrite F3 in Hk. inversion Hk.
      + rewrite <- ES in F1. pose proof (si_dot g _ _ _ _ (HSI _ _ F1) c3 F2 Hn) as Hd.
        pose proof (f_equal snd F3) as F4. unfold ckey in F4. simpl in F4. congruence. }
    destruct (Pred _ _ E) as [[E1 Z1]|(s1 & X1 & _ & Ed1)], (Pred _ _ E') as [[E2 Z2]|(s2 & X2 & _ & Ed2)].
    + congruence.
    + exfalso. apply (Dot s s' st st' X2 s2); auto.
    + exfalso. apply (Dot s' s st' st X1 s1); auto. intros; now rewrite HI.
    + eapply (iv_uniq g _ I); eauto. destruct (iv_sorted g _ I _ _ E), (iv_sorted g _ I _ _ E').
      apply sorted_nodup_unique; auto.
      assert (Half : forall s s' st st' s1 X1 s2 X2, nth_error (p_states p0) s = Some st -> nth_error (p_states p0) s' = Some st' ->
        (forall k, item p s k <-> item p s' k) -> edge p s1 X1 s -> edge p s2 X2 s' ->
        forall k, In k (map (ckey (p_cfgs p0)) (s_basis st)) -> In k (map (ckey (p_cfgs p0)) (s_basis st'))).
      { clear -Eto Item HSI ES. intros s s' st st' s1 X1 s2 X2 E E' HI E1 E2 k Hk.
        apply in_map_iff in Hk as (c & <- & Hc). pose proof (Eto _ _ _ _ E1 E c Hc) as Hd.
        assert (Hi : item p s (ckey (p_cfgs p0) c)).
        { apply Item. exists st, c. splits; auto. rewrite <- ES in E. apply (si_basis g _ _ _ _ (HSI _ _ E)). auto. }
        apply HI in Hi. apply Item in Hi as (st2 & c2 & F1 & F2 & F3). rewrite E' in F1. inversion F1; subst st2.
        rewrite <- F3. apply in_map. destruct (in_dec Nat.eq_dec c2 (s_basis st')) as [?|Hn]; auto.
        exfalso. rewrite <- ES in E'. pose proof (si_dot g _ _ _ _ (HSI _ _ E') c2 F2 Hn) as Hz.
        apply Hd. rewrite <- F3. exact Hz. }
      intros k. split; eapply Half; eauto. intros; now rewrite HI.
  - intros s st Hs. rewrite EKm. apply (si_keys g _ _ _ _ (HSI _ _ Hs)).
Qed.
End Main.
End Auto.
