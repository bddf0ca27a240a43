(** C14: the follow sets are exactly the LALR(1) lookaheads. *)
From Verif Require Import Base Syntax BaseFacts FrontEnd First States Spec WfGrammar FirstFacts
  ClosureFacts StatesFacts DfsFacts FollowFacts AutoFacts.

Section Lalr.
Context (g : grammar) (W : wf_grammar g) (p : pst) (A : Aut g p).

Inductive path : list nat -> nat -> Prop :=
| path_nil : path [] 0
| path_snoc gamma s X t : path gamma s -> edge g p s X t -> path (gamma ++ [X]) t.

Lemma path_inv_nil s : path [] s -> s = 0.
Proof. intros H. inversion H as [|gamma s' X t H1 H2 E]; auto. now apply app_eq_nil in E as [_ E]. Qed.
Lemma path_inv_snoc gamma X t : path (gamma ++ [X]) t -> exists s, path gamma s /\ edge g p s X t.
Proof.
  intros H. inversion H as [E|gamma' s X' t' H1 H2 E].
  - symmetry in E. now apply app_eq_nil in E as [_ E].
  - subst. apply app_inj_tail in E as [-> ->]. eauto.
Qed.

Lemma no_edge_0 s X : ~ edge g p s X 0.
Proof.
  intros E. destruct (au_edge g p A _ _ _ E) as (_ & k & Hi & Hk).
  pose proof (au_dot g p A _ (au_goto g p A _ _ _ _ E Hi Hk)) as Hd. discriminate.
Qed.

Lemma path_fun gamma : forall s s', path gamma s -> path gamma s' -> s = s'.
Proof.
  induction gamma as [|X gamma IH] using rev_ind; intros s s' H H'.
  - apply path_inv_nil in H, H'. congruence.
  - apply path_inv_snoc in H as (s1 & H1 & E1). apply path_inv_snoc in H' as (s2 & H2 & E2).
    rewrite (IH _ _ H2 H1) in E2. eapply (au_fun g p A); eauto.
Qed.

Lemma path_reach : forall s, s < List.length (p_states p) -> exists gamma, path gamma s.
Proof.
  induction s as [s IH] using lt_wf_ind. intros Hs. destruct (au_pred g p A s Hs) as [->|(s' & X & Hl & E)].
  - exists []. constructor.
  - destruct (IH s' Hl) as [gamma Hg]; [lia|]. exists (gamma ++ [X]). econstructor; eauto.
Qed.

Lemma path_range gamma s : path gamma s -> s < List.length (p_states p).
Proof.
  destruct 1 as [|gamma s X t H E]; [apply (au_pos g p A)|]. now apply (au_edge g p A) in E as [? _].
Qed.

Lemma kpost_nth r ru d X al : nth_error (g_rules g) r = Some ru -> nth_error (r_rhs ru) d = Some (X, al) ->
  kpost g (r, d) = Some X.
Proof. intros H1 H2. unfold kpost; simpl. rewrite (grule_nth _ _ _ H1), H2. auto. Qed.

Lemma nth_kpost k X : kvalid g k -> kpost g k = Some X -> exists ru al,
  nth_error (g_rules g) (fst k) = Some ru /\ nth_error (r_rhs ru) (snd k) = Some (X, al) /\
  krest g k = map fst (skipn (S (snd k)) (r_rhs ru)).
Proof.
  intros [H1 _] H. exists (grule g (fst k)). unfold kpost in H. destruct (nth_error (r_rhs _) _) as [[Y al]|] eqn:E; [|discriminate].
  inversion H; subst Y. exists al. splits; auto. now apply nth_grule.
Qed.

Lemma kstep_nth r ru d X al q qu : nth_error (g_rules g) r = Some ru -> nth_error (r_rhs ru) d = Some (X, al) ->
  nth_error (g_rules g) q = Some qu -> r_lhs qu = X -> kstep g (r, d) (q, 0).
Proof.
  intros H1 H2 H3 H4. exists X. splits; auto; [eapply kpost_nth; eauto|]. apply in_rules_of. eauto.
Qed.

Lemma lr0_item gamma r d : lr0 g gamma r d -> forall s, path gamma s -> item p s (r, d).
Proof.
  induction 1 as [r ru H1 H2|gamma r ru d X al H IH H1 H2|gamma r ru d X al q qu H IH H1 H2 H3 H4]; intros s Hp.
  - apply path_inv_nil in Hp as ->. apply (au_start g p A). apply in_rules_of. eauto.
  - apply path_inv_snoc in Hp as (s1 & P1 & E). apply (au_goto g p A s1 (r, d) X s); auto. eapply kpost_nth; eauto.
  - apply (au_close g p A s (r, d)); auto. eapply kstep_nth; eauto.
Qed.

Lemma item_lr0 gamma s k : path gamma s -> item p s k -> lr0 g gamma (fst k) (snd k).
Proof.
  intros Hp Hi. apply (au_reach g p A) in Hi.
  assert (Hk : forall k, kernel g p s k -> lr0 g gamma (fst k) (snd k)).
  { clear k Hi. induction Hp as [|gamma s X t Hp IH E].
    - intros k [Hi [Hn|(_ & Hd & Hr)]]; [apply (au_dot g p A) in Hi; contradiction|].
      rewrite Hd. apply in_rules_of in Hr as (ru & H1 & H2). econstructor; eauto.
    - intros k [Hi [Hn|(-> & Hd & Hr)]]; [|now apply no_edge_0 in E].
      destruct (au_back g p A _ _ _ _ E Hi Hn) as (k0 & Hi0 & HX & ->).
      destruct (nth_kpost k0 X) as (ru & al & R1 & R2 & R3); auto; [eapply (au_valid g p A); eauto|].
      simpl. eapply lr0_shift; eauto.
      apply (au_reach g p A) in Hi0. clear -Hi0 IH A. induction Hi0 as [k Hk|k k' Hk IH1 Hs]; auto.
      destruct Hs as (Y & HY & Hq & Hd). rewrite Hd. apply in_rules_of in Hq as (qu & Q1 & Q2).
      assert (Hv : kvalid g k).
      { clear -Hk A. destruct Hk as [k [Hi _]|]; [eapply (au_valid g p A); eauto|eapply kstep_valid; eauto]. }
      destruct (nth_kpost k Y Hv HY) as (ru & al & R1 & R2 & R3). eapply lr0_closure; eauto. }
  induction Hi as [k Hi|k k' Hc IH Hs]; auto.
  destruct Hs as (Y & HY & Hq & Hd). rewrite Hd. apply in_rules_of in Hq as (qu & Q1 & Q2).
  assert (Hv : kvalid g k).
  { clear -Hc A. destruct Hc as [k [Hi _]|]; [eapply (au_valid g p A); eauto|eapply kstep_valid; eauto]. }
  destruct (nth_kpost k Y Hv HY) as (ru & al & R1 & R2 & R3). eapply lr0_closure; eauto.
Qed.

Lemma lr0_viable gamma r d : lr0 g gamma r d -> exists s, path gamma s.
Proof.
  induction 1 as [r ru H1 H2|gamma r ru d X al H [s IH] H1 H2|gamma r ru d X al q qu H IH H1 H2 H3 H4]; auto.
  - exists 0. constructor.
  - pose proof (lr0_item _ _ _ H s IH) as Hi. destruct (au_next g p A s (r, d) X Hi) as [t E]; [eapply kpost_nth; eauto|].
    exists t. econstructor; eauto.
Qed.

Lemma lr1_lr0 gamma r d b : lr1 g gamma r d b -> lr0 g gamma r d.
Proof. induction 1; econstructor; eauto. Qed.

Lemma lr1_spread gamma r d b : lr1 g gamma r d b -> forall s, path gamma s -> spread g p s (r, d) b.
Proof.
  induction 1 as [r ru H1 H2|gamma r ru d b X al H IH H1 H2|gamma r ru d X al q qu b H H1 H2 H3 H4 H5|
                  gamma r ru d X al q qu b H IH H1 H2 H3 H4 H5]; intros s Hp.
  - apply path_inv_nil in Hp as ->. apply sp_start. apply in_rules_of. eauto.
  - apply path_inv_snoc in Hp as (s1 & P1 & E). apply (sp_goto g p s1 (r, d) X s b); auto. eapply kpost_nth; eauto.
  - apply (sp_first g p s (r, d)); auto.
    + eapply lr0_item; eauto.
    + eapply kstep_nth; eauto.
    + unfold krest; simpl. rewrite (grule_nth _ _ _ H1). auto.
  - apply (sp_null g p s (r, d)); auto.
    + eapply kstep_nth; eauto.
    + unfold krest; simpl. rewrite (grule_nth _ _ _ H1). auto.
Qed.

Lemma spread_item s k b : spread g p s k b -> item p s k.
Proof.
  induction 1; eauto using (au_start g p A), (au_close g p A).
  eapply (au_goto g p A); eauto.
Qed.

Lemma spread_lr1 s k b : spread g p s k b -> exists gamma, path gamma s /\ lr1 g gamma (fst k) (snd k) b.
Proof.
  induction 1 as [r Hr|s k k' b Hi (X & HX & Hq & Hd) Hf|s k k' b Hs IH (X & HX & Hq & Hd) Hn|s k X t b Hs IH HX E].
  - exists []. split; [constructor|]. apply in_rules_of in Hr as (ru & ? & ?). econstructor; eauto.
  - destruct (path_reach s) as [gamma Hg]; [eapply (au_range g p A); eauto|]. exists gamma. split; auto.
    apply in_rules_of in Hq as (qu & Q1 & Q2). rewrite Hd.
    destruct (nth_kpost k X) as (ru & al & R1 & R2 & R3); auto; [eapply (au_valid g p A); eauto|].
    eapply lr1_first; eauto; [apply (item_lr0 gamma s k); auto|]. now rewrite <- R3.
  - destruct IH as (gamma & Hg & Hl). exists gamma. split; auto.
    apply in_rules_of in Hq as (qu & Q1 & Q2). rewrite Hd.
    destruct (nth_kpost k X) as (ru & al & R1 & R2 & R3); auto; [eapply (au_valid g p A); eauto using spread_item|].
    eapply lr1_null; eauto. now rewrite <- R3.
  - destruct IH as (gamma & Hg & Hl). exists (gamma ++ [X]). split; [econstructor; eauto|].
    destruct (nth_kpost k X) as (ru & al & R1 & R2 & R3); auto; [eapply (au_valid g p A); eauto using spread_item|].
    simpl. eapply lr1_shift; eauto.
Qed.

(** State [s] has exactly the items valid for [gamma]. *)
Definition reaches (gamma : list nat) (s : nat) : Prop :=
  forall r d, lr0 g gamma r d <-> item p s (r, d).

Theorem lalr_exact s r d b : s < List.length (p_states p) ->
  look p s (r, d) b <-> exists gamma, reaches gamma s /\ lr1 g gamma r d b.
Proof.
  intros Hs. rewrite (au_look g p A). split.
  - intros H. apply spread_lr1 in H as (gamma & Hg & Hl). exists gamma. split; auto.
    intros r' d'. split.
    + intros H. eapply lr0_item; eauto.
    + intros H. apply (item_lr0 gamma s (r', d')); auto.
  - intros (gamma & Hr & Hl). pose proof (lr1_lr0 _ _ _ _ Hl) as H0.
    destruct (lr0_viable _ _ _ H0) as [s' Hs'].
    assert (s = s').
    { apply (au_uniq g p A); auto; [eapply path_range; eauto|]. intros [r' d']. rewrite <- (Hr r' d'). split.
      - intros H. eapply lr0_item; eauto.
      - intros H. apply (item_lr0 gamma s' (r', d')); auto. }
    subst s'. eapply lr1_spread; eauto.
Qed.

(** Every state is the state of some string, and every viable string has exactly one state. *)
Theorem states_exact :
  (forall s, s < List.length (p_states p) -> exists gamma, reaches gamma s) /\
  (forall gamma r d, lr0 g gamma r d -> exists s, s < List.length (p_states p) /\ reaches gamma s /\
     forall s', s' < List.length (p_states p) -> reaches gamma s' -> s' = s).
Proof.
  assert (PR : forall gamma s, path gamma s -> reaches gamma s).
  { intros gamma s Hp r d. split; intros H; [eapply lr0_item; eauto|apply (item_lr0 gamma s (r, d)); auto]. }
  split.
  - intros s Hs. destruct (path_reach s Hs) as [gamma Hg]. eauto.
  - intros gamma r d H. destruct (lr0_viable _ _ _ H) as [s Hp]. exists s.
    splits; eauto using path_range. intros s' Hs' Hr. apply (au_uniq g p A); eauto using path_range.
    intros [r' d']. rewrite <- (Hr r' d'), <- (PR _ _ Hp r' d'). tauto.
Qed.
End Lalr.
