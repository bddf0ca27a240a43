(** Nullability and FIRST sets are exact (C13), and the two loops terminate. *)
From Verif Require Import Base Syntax BaseFacts FrontEnd First Spec WfGrammar.

Section FirstFacts.
Context (g : grammar) (W : wf_grammar g).

(** ** Nullability *)
Definition lam_sound (lam : list bool) := forall X, lam_of lam X = true -> nullable g X.

Lemma nullable_all_forall Xs : nullable_all g Xs <-> Forall (nullable g) Xs.
Proof.
  split; intros H.
  - induction H; constructor; auto.
  - induction H; constructor; auto.
Qed.

Lemma lambda_rule_sound lam pr r ru lam' pr' :
  nth_error (g_rules g) r = Some ru ->
  lambda_rule (lam, pr) ru = (lam', pr') -> lam_sound lam -> lam_sound lam'.
Proof.
  intros Hr H Hs. unfold lambda_rule in H.
  destruct (lam_of lam (r_lhs ru)); [inversion H; subst; auto|].
  destruct (forallb _ _) eqn:E; inversion H; subst; auto.
  intros X HX. unfold lam_of in HX. rewrite nth_upd in HX.
  destruct (Nat.eqb_spec (r_lhs ru) X) as [HE|HE]; [|simpl in HX; auto].
  subst X. eapply n_rule; eauto. apply nullable_all_forall, Forall_forall.
  intros X HX'. apply in_map_iff in HX' as (p & <- & Hp).
  rewrite forallb_forall in E. apply Hs. now apply E.
Qed.

Lemma lambda_pass_sound l lam pr lam' pr' :
  (forall ru, In ru l -> exists r, nth_error (g_rules g) r = Some ru) ->
  fold_left lambda_rule l (lam, pr) = (lam', pr') -> lam_sound lam -> lam_sound lam'.
Proof.
  revert lam pr; induction l as [|ru l IH]; intros lam pr Hl H Hs; cbn [fold_left] in H.
  - inversion H; subst; auto.
  - destruct (lambda_rule (lam, pr) ru) as [lam1 pr1] eqn:E.
    destruct (Hl ru) as [r Hr]; [now left|].
    eapply IH; [|eauto|]. { intros; apply Hl; now right. }
    eapply lambda_rule_sound; eauto.
Qed.

Lemma lambda_rule_pr lam pr ru lam' pr' :
  lambda_rule (lam, pr) ru = (lam', pr') -> pr = true -> pr' = true.
Proof.
  unfold lambda_rule. destruct (lam_of _ _); [intros H; now inversion H|].
  destruct (forallb _ _); intros H; now inversion H.
Qed.
Lemma lambda_pass_pr l lam pr lam' pr' :
  fold_left lambda_rule l (lam, pr) = (lam', pr') -> pr = true -> pr' = true.
Proof.
  revert lam pr; induction l as [|ru l IH]; intros lam pr H Hp; cbn [fold_left] in H.
  - now inversion H; subst.
  - destruct (lambda_rule (lam, pr) ru) as [lam1 pr1] eqn:E.
    eapply IH; eauto. eapply lambda_rule_pr; eauto.
Qed.

Lemma lambda_pass_fix l lam lam' :
  fold_left lambda_rule l (lam, false) = (lam', false) ->
  lam' = lam /\ forall ru, In ru l ->
    forallb (fun p => lam_of lam (fst p)) (r_rhs ru) = true -> lam_of lam (r_lhs ru) = true.
Proof.
  induction l as [|ru l IH]; intros H; cbn [fold_left] in H.
  - inversion H. split; [auto|easy].
  - destruct (lambda_rule (lam, false) ru) as [lam1 pr1] eqn:E.
    assert (pr1 = false).
    { destruct pr1; auto. now apply lambda_pass_pr in H. }
    subst pr1. unfold lambda_rule in E.
    destruct (lam_of lam (r_lhs ru)) eqn:E1; [|destruct (forallb (fun p => lam_of lam (fst p)) (r_rhs ru)) eqn:E2];
      inversion E; subst lam1.
    + apply IH in H as [-> H]. split; auto. intros ru' [<-|Hin]; auto.
    + apply IH in H as [-> H]. split; auto. intros ru' [<-|Hin] H'; auto. congruence.
Qed.

Lemma lambda_loop_spec fuel lam lam' :
  lambda_loop fuel g lam = GOk lam' -> lam_sound lam -> forall X, lam_of lam' X = true <-> nullable g X.
Proof.
  revert lam; induction fuel as [|n IH]; intros lam H Hs; [discriminate|].
  cbn [lambda_loop] in H. destruct (fold_left _ _ _) as [lam1 pr] eqn:E.
  assert (Hall : forall ru, In ru (g_rules g) -> exists r, nth_error (g_rules g) r = Some ru).
  { intros ru Hin. now apply In_nth_error. }
  assert (Hs1 : lam_sound lam1) by (eapply lambda_pass_sound; eauto).
  destruct pr; [now eapply IH; eauto|].
  inversion H; subst lam1. apply lambda_pass_fix in E as [-> E].
  intros X. split; [apply Hs1|].
  revert X. 
  enough (Hb : (forall X, nullable g X -> lam_of lam X = true) /\
               (forall Xs, nullable_all g Xs -> forallb (lam_of lam) Xs = true)) by apply Hb.
  apply nullable_both.
  - intros r ru Hr _ IHr. apply E; [eapply nth_error_In; eauto|].
    clear - IHr. induction (r_rhs ru) as [|p l IHl]; simpl in *; auto.
    apply andb_true_iff in IHr as [-> H2]. simpl. auto.
  - reflexivity.
  - intros X Xs _ H1 _ H2. simpl. now rewrite H1, H2.
Qed.

(** ** FIRST *)
Context (lam : list bool) (Hlam : forall X, lam_of lam X = true <-> nullable g X).

Definition fs_sound (fs : list (list nat)) := forall X b, In b (first_of fs X) -> first g b X.

Lemma first_of_upd fs i l X : i < List.length fs ->
  first_of (upd fs i (fun _ => l)) X = if i =? X then l else first_of fs X.
Proof.
  intros H. unfold first_of. rewrite nth_upd. destruct (Nat.eqb_spec i X); simpl; auto.
  subst. apply Nat.ltb_lt in H. now rewrite H.
Qed.

Lemma first_skip pre b rest : nullable_all g pre -> first_all g b rest -> first_all g b (pre ++ rest).
Proof. intros H1 H2. induction pre; simpl; auto. inversion H1; subst. apply f_skip; auto. Qed.

Lemma first_rhs_sound r ru rhs : nth_error (g_rules g) r = Some ru ->
  forall pre fs pr fs' pr',
  r_rhs ru = pre ++ rhs -> nullable_all g (map fst pre) ->
  first_rhs g lam (r_lhs ru) rhs fs pr = (fs', pr') ->
  List.length fs = List.length (g_syms g) ->
  fs_sound fs -> fs_sound fs' /\ List.length fs' = List.length fs.
Proof.
  intros Hr. induction rhs as [|[s2 al] rest IH]; intros pre fs pr fs' pr' Hpre Hnull H Hlen Hs;
    cbn [first_rhs] in H.
  - inversion H; subst; auto.
  - assert (Hlhs : r_lhs ru < List.length fs) by (rewrite Hlen; eapply lhs_range; eauto).
    assert (Hs2 : s2 < List.length (g_syms g)).
    { apply (rhs_in g W r ru s2 Hr). rewrite Hpre, map_app. apply in_or_app. right. now left. }
    assert (Hin : forall b, first g b s2 -> first g b (r_lhs ru)).
    { intros b Hb. eapply f_rule; eauto. rewrite Hpre, map_app. apply first_skip; auto.
      simpl. now apply f_here. }
    assert (Hpre' : r_rhs ru = (pre ++ [(s2, al)]) ++ rest) by now rewrite <- app_assoc.
    assert (Hn' : lam_of lam s2 = true -> nullable_all g (map fst (pre ++ [(s2, al)]))).
    { intros E. rewrite map_app. apply nullable_all_forall, Forall_app. split.
      - now apply nullable_all_forall.
      - simpl. constructor; auto. now apply Hlam. }
    assert (Hupd : forall l, (forall b, In b l -> first g b (r_lhs ru)) ->
                     fs_sound (upd fs (r_lhs ru) (fun _ => l))).
    { intros l Hl X b. rewrite first_of_upd by auto. destruct (Nat.eqb_spec (r_lhs ru) X) as [E|E]; auto.
      intros Hb. rewrite <- E. now apply Hl. }
    destruct (Nat.eqb_spec (r_lhs ru) s2) as [E|E].
    + destruct (lam_of lam (r_lhs ru)) eqn:El.
      * apply (IH (pre ++ [(s2, al)]) fs pr fs' pr'); auto. apply Hn'. now rewrite <- E.
      * inversion H; subst; auto.
    + destruct (sy_kind (gsym g s2)) eqn:Ek.
      * inversion H; subst. split; [|apply upd_length]. apply Hupd. intros b Hb.
        apply sadd_in in Hb as [->|Hb]; [|now apply Hs].
        apply Hin, f_term. left. split; auto. unfold is_term. rewrite gsym_kind_at; congruence.
      * assert (Hs' : fs_sound (upd fs (r_lhs ru) (fun _ => sunion (first_of fs (r_lhs ru)) (first_of fs s2)))).
        { apply Hupd. intros b Hb. apply sunion_in in Hb as [Hb|Hb]; [now apply Hs|].
          apply Hin. now apply Hs. }
        destruct (lam_of lam s2) eqn:El.
        -- apply (IH (pre ++ [(s2, al)])) in H; auto.
           ++ destruct H as [H1 H2]. split; auto. now rewrite H2, upd_length.
           ++ now rewrite upd_length.
        -- inversion H; subst. split; auto. apply upd_length.
      * inversion H; subst. split; [|apply upd_length]. apply Hupd. intros b Hb.
        apply sunion_in in Hb as [Hb|Hb]; [now apply Hs|].
        apply Hin, f_term. right. exists members. split; auto. rewrite gsym_kind_at; congruence.
Qed.

Lemma orb_len_true (pr : bool) (a b : list nat) :
  pr = true -> (pr || (List.length a <? List.length b)) = true.
Proof. now intros ->. Qed.

Lemma first_rhs_pr s1 rhs fs fs' pr' :
  first_rhs g lam s1 rhs fs true = (fs', pr') -> pr' = true.
Proof.
  revert fs; induction rhs as [|[s2 al] rest IH]; intros fs H; cbn [first_rhs] in H.
  - now inversion H.
  - destruct (s1 =? s2).
    + destruct (lam_of lam s1); [now apply IH in H|now inversion H].
    + destruct (sy_kind (gsym g s2)); simpl in H; try now inversion H.
      destruct (lam_of lam s2); [now apply IH in H|now inversion H].
Qed.

(** What a pass that adds nothing guarantees for the rest [rhs] of a rule *)
Definition fs_closed (fs : list (list nat)) (s1 : nat) (rhs : list (nat * bool)) : Prop :=
  forall b pre X rest, map fst rhs = pre ++ X :: rest -> nullable_all g pre -> first g b X ->
    (kind_at g X = Some KNonTerm -> In b (first_of fs X)) ->
    In b (first_of fs s1).

Lemma first_rhs_fix s1 rhs fs fs' :
  kind_at g s1 = Some KNonTerm ->
  s1 < List.length fs ->
  (forall X, In X (map fst rhs) -> X < List.length (g_syms g)) ->
  first_rhs g lam s1 rhs fs false = (fs', false) -> fs' = fs /\ fs_closed fs s1 rhs.
Proof.
  intros Hk1. revert fs; induction rhs as [|[s2 al] rest IH]; intros fs Hs1 HX H; cbn [first_rhs] in H.
  - inversion H. split; auto. intros b [|Y pre] X rest Hb; discriminate.
  - assert (Hr : forall X, In X (map fst rest) -> X < List.length (g_syms g)) by (intros; apply HX; now right).
    assert (Hs2 : s2 < List.length (g_syms g)) by (apply HX; now left).
    destruct (Nat.eqb_spec s1 s2) as [E|E].
    + subst s2. destruct (lam_of lam s1) eqn:El.
      * apply IH in H as [-> H]; auto. split; auto. intros b pre X rst Hb Hnl Hf Hn.
        simpl in Hb. destruct pre as [|Y pre]; simpl in Hb; inversion Hb; subst; auto.
        inversion Hnl; subst. eapply H; eauto.
      * inversion H; subst. split; auto. intros b pre X rst Hb Hnl Hf Hn.
        simpl in Hb. destruct pre as [|Y pre]; simpl in Hb; inversion Hb; subst; auto.
        inversion Hnl as [|? ? HY _]; subst. apply Hlam in HY. congruence.
    + assert (Hnl_k : sy_kind (gsym g s2) <> KNonTerm -> ~ nullable g s2).
      { intros Hk Hn. apply nullable_nt in Hn; auto. apply kind_at_gsym in Hn. auto. }
      destruct (sy_kind (gsym g s2)) eqn:Ek; simpl in H.
      * inversion H as [[H1 H2]].
        assert (Hin : In s2 (first_of fs s1)).
        { apply sadd_same. apply Nat.ltb_ge in H2. pose proof (sadd_length s2 (first_of fs s1)). lia. }
        assert (Hfs : sadd s2 (first_of fs s1) = first_of fs s1).
        { unfold sadd. apply smem_true in Hin. now rewrite Hin. }
        split. { rewrite Hfs. apply (upd_id _ _ _ []). reflexivity. }
        intros b pre X rst Hb Hnl Hf Hn. simpl in Hb. destruct pre as [|Y pre]; simpl in Hb; inversion Hb; subst.
        -- inversion Hf as [? Hm|r ru Hr' Hf']; subst.
           ++ destruct Hm as [[-> _]|(ms & Hms & _)]; auto. apply kind_at_gsym in Hms. congruence.
           ++ apply (wg_rule g W) in Hr' as [Hr' _]. apply kind_at_gsym in Hr'. congruence.
        -- inversion Hnl as [|? ? HY Hnl']; subst. exfalso. apply Hnl_k; auto. congruence.
      * set (new := sunion (first_of fs s1) (first_of fs s2)) in *.
        assert (Hnp : (List.length (first_of fs s1) <? List.length new) = false).
        { destruct (_ <? _); auto. destruct (lam_of lam s2); [|now inversion H].
          now apply first_rhs_pr in H. }
        rewrite Hnp in H. apply Nat.ltb_ge in Hnp.
        pose proof (sunion_length (first_of fs s1) (first_of fs s2)) as Hle.
        assert (Heq : List.length (first_of fs s1) = List.length new) by (unfold new in *; lia).
        assert (Hfs : upd fs s1 (fun _ => new) = fs).
        { unfold new. rewrite sunion_same_eq by auto. apply (upd_id _ _ _ []). reflexivity. }
        rewrite Hfs in H.
        assert (Hcl : fs' = fs /\ (lam_of lam s2 = true -> fs_closed fs s1 rest)).
        { destruct (lam_of lam s2); [apply IH in H as [-> H]; auto|inversion H; split; auto; discriminate]. }
        destruct Hcl as [-> Hcl]. split; auto. intros b pre X rst Hb Hnl Hf Hn.
        simpl in Hb. destruct pre as [|Y pre]; simpl in Hb; inversion Hb; subst.
        -- eapply sunion_same; [exact Heq|]. apply Hn.
           rewrite gsym_kind_at; congruence.
        -- inversion Hnl as [|? ? HY Hnl']; subst. eapply Hcl; eauto. now apply Hlam.
      * inversion H as [[H1 H2]]. apply Nat.ltb_ge in H2.
        pose proof (sunion_length (first_of fs s1) members) as Hle.
        assert (Heq : List.length (first_of fs s1) = List.length (sunion (first_of fs s1) members)) by lia.
        split. { rewrite sunion_same_eq by auto. apply (upd_id _ _ _ []). reflexivity. }
        intros b pre X rst Hb Hnl Hf Hn. simpl in Hb. destruct pre as [|Y pre]; simpl in Hb; inversion Hb; subst.
        -- inversion Hf as [? Hm|r ru Hr' Hf']; subst.
           ++ destruct Hm as [[-> Hm]|(ms & Hms & Hin)].
              ** apply kind_at_gsym in Hm. congruence.
              ** apply kind_at_gsym in Hms. assert (ms = members) by congruence. subst ms.
                 eapply sunion_same; eauto.
           ++ apply (wg_rule g W) in Hr' as [Hr' _]. apply kind_at_gsym in Hr'. congruence.
        -- inversion Hnl as [|? ? HY Hnl']; subst. exfalso. apply Hnl_k; auto. congruence.
Qed.

Definition first_pass (l : list rule) (st : list (list nat) * bool) :=
  fold_left (fun st r => first_rhs g lam (r_lhs r) (r_rhs r) (fst st) (snd st)) l st.

Lemma first_pass_sound l fs pr fs' pr' :
  incl l (g_rules g) -> first_pass l (fs, pr) = (fs', pr') ->
  List.length fs = List.length (g_syms g) -> fs_sound fs ->
  fs_sound fs' /\ List.length fs' = List.length fs.
Proof.
  revert fs pr; induction l as [|ru l IH]; intros fs pr Hl H Hlen Hs; cbn [first_pass fold_left] in H.
  - inversion H; subst; auto.
  - simpl fst in H; simpl snd in H.
    destruct (first_rhs g lam (r_lhs ru) (r_rhs ru) fs pr) as [fs1 pr1] eqn:E.
    destruct (In_nth_error _ _ (Hl ru (or_introl eq_refl))) as [r Hr].
    destruct (first_rhs_sound r ru (r_rhs ru) Hr [] _ _ _ _ eq_refl (n_nil g) E Hlen Hs) as [H1 H2].
    apply IH in H; auto; [|intros x Hx; apply Hl; now right|congruence].
    destruct H as [H3 H4]. split; auto. congruence.
Qed.

Lemma first_pass_pr l fs fs' pr' : first_pass l (fs, true) = (fs', pr') -> pr' = true.
Proof.
  revert fs; induction l as [|ru l IH]; intros fs H; cbn [first_pass fold_left] in H.
  - now inversion H.
  - simpl fst in H; simpl snd in H. destruct (first_rhs _ _ _ _ _ _) as [fs1 pr1] eqn:E.
    apply first_rhs_pr in E. subst. eapply IH; eauto.
Qed.

Lemma first_pass_fix l fs fs' :
  incl l (g_rules g) -> List.length fs = List.length (g_syms g) ->
  first_pass l (fs, false) = (fs', false) ->
  fs' = fs /\ forall ru, In ru l -> fs_closed fs (r_lhs ru) (r_rhs ru).
Proof.
  induction l as [|ru l IH]; intros Hl Hlen H; cbn [first_pass fold_left] in H.
  - inversion H. split; [auto|easy].
  - simpl fst in H; simpl snd in H. destruct (first_rhs _ _ _ _ _ _) as [fs1 pr1] eqn:E.
    assert (pr1 = false). { destruct pr1; auto. now apply first_pass_pr in H. }
    subst pr1.
    destruct (In_nth_error _ _ (Hl ru (or_introl eq_refl))) as [r Hr].
    apply first_rhs_fix in E as [-> Hc].
    + apply IH in H as [-> H]; auto; [|intros x Hx; apply Hl; now right].
      split; auto. intros ru' [<-|Hin]; auto.
    + now apply (wg_rule g W) in Hr.
    + rewrite Hlen. eapply lhs_range; eauto.
    + intros X HX. eapply rhs_in; eauto.
Qed.

Lemma first_loop_spec fuel fs fs' :
  first_loop fuel g lam fs = GOk fs' -> List.length fs = List.length (g_syms g) -> fs_sound fs ->
  forall X b, kind_at g X = Some KNonTerm -> (In b (first_of fs' X) <-> first g b X).
Proof.
  revert fs; induction fuel as [|n IH]; intros fs H Hlen Hs; [discriminate|].
  cbn [first_loop] in H.
  change (fold_left _ (g_rules g) (fs, false)) with (first_pass (g_rules g) (fs, false)) in H.
  destruct (first_pass (g_rules g) (fs, false)) as [fs1 pr] eqn:E.
  destruct (first_pass_sound _ _ _ _ _ (incl_refl _) E Hlen Hs) as [Hs1 Hl1].
  destruct pr; [eapply IH; eauto; congruence|].
  inversion H; subst fs1. apply first_pass_fix in E as [-> E]; auto using incl_refl.
  intros X b HX. split; [apply Hs1|]. intros Hf. revert HX. revert X Hf.
  enough (Hb : (forall X, first g b X ->
                  (kind_at g X = Some KNonTerm -> In b (first_of fs X)) /\ first g b X) /\
     (forall Xs, first_all g b Xs -> exists pre X rest, Xs = pre ++ X :: rest /\ nullable_all g pre /\
        first g b X /\ (kind_at g X = Some KNonTerm -> In b (first_of fs X)))).
  { intros X Hf. now apply Hb. }
  apply first_both.
  - intros X Hm. split; [|now apply f_term]. intros HX. exfalso. eapply member_not_nt; eauto.
  - intros r ru Hr Hf (pre & X & rest & Heq & Hn & HfX & HX).
    split; [|eapply f_rule; eauto]. intros _.
    eapply E; eauto. eapply nth_error_In; eauto.
  - intros X Xs _ [H1 H2]. exists [], X, Xs. repeat split; auto. constructor.
  - intros X Xs Hn _ (pre & Y & rest & -> & Hn' & H1 & H2).
    exists (X :: pre), Y, rest. repeat split; auto. now constructor.
Qed.
End FirstFacts.

(** C13 *)
Theorem find_first_sets_exact fuel g fi : wf_grammar g -> find_first_sets fuel g = GOk fi ->
  (forall X, lam_of (fi_lam fi) X = true <-> nullable g X) /\
  (forall X b, kind_at g X = Some KNonTerm -> (In b (first_of (fi_first fi) X) <-> first g b X)).
Proof.
  intros W H. unfold find_first_sets in H. gok H. gok H. inversion H; subst fi. cbn [fi_lam fi_first].
  assert (H1 : forall X, lam_of a X = true <-> nullable g X).
  { eapply lambda_loop_spec; eauto. intros X HX. unfold lam_of in HX.
    rewrite nth_repeat in HX. discriminate. }
  split; auto. eapply first_loop_spec; eauto.
  - apply repeat_length.
  - intros X b Hb. unfold first_of in Hb. rewrite nth_repeat in Hb. contradiction.
Qed.
