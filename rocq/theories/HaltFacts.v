(** No endless reductions (C06, the part about the automaton).

    In a grammar whose right-hand-side symbols all derive some token sequence, and
    with at most one candidate action per state and lookahead, the number of
    reductions that can follow one another is bounded for every stack, whatever the
    lookahead on which the parser performs them. *)
From Verif Require Import Base Syntax BaseFacts FrontEnd First States Spec WfGrammar FirstFacts
  ClosureFacts StatesFacts DfsFacts FollowFacts AutoFacts LalrFacts Actions ActFacts AbsFacts.

Section Halt.
Context (g : grammar) (W : wf_grammar g) (p : pst) (A : Aut g p).
Notation edge := (edge g p). Notation item := (item p). Notation look := (look p).
Notation raw := (raw g p). Notation rlen := (rlen g). Notation ns := (List.length (p_states p)).
Notation cfg := (list (nat * tree unit)).
Notation top := (top unit). Notation aspine := (aspine g p unit). Notation ared := (ared g p unit).
Notation asteps := (asteps g p unit). Notation afinal := (afinal g p unit).

(** Every symbol used in a rule derives something by itself. *)
Definition all_derive : Prop :=
  forall r ru Y al, nth_error (g_rules g) r = Some ru -> In (Y, al) (r_rhs ru) ->
    exists tr : tree unit, derives g (direct g) Y tr.

Lemma all_derive_list r ru d : all_derive -> nth_error (g_rules g) r = Some ru ->
  exists us : list (tree unit), derives_all g (direct g) (map fst (skipn d (r_rhs ru))) us.
Proof.
  intros HP Hr. assert (Hin : forall y, In y (skipn d (r_rhs ru)) -> In y (r_rhs ru)).
  { intros y Hy. rewrite <- (firstn_skipn d (r_rhs ru)). apply in_or_app. now right. }
  induction (skipn d (r_rhs ru)) as [|[Y al] l IH]; simpl; [exists []; constructor|].
  destruct (HP _ _ Y al Hr (Hin _ (or_introl eq_refl))) as [u Hu]. destruct IH as [us Hus]; [intros; apply Hin; now right|].
  exists (u :: us). constructor; auto.
Qed.

Lemma it_closed s k : clo_reach g (kernel g p s) k -> item s k.
Proof. induction 1 as [k [H _]|k k' H IH Hk]; auto. eapply (au_close g p A); eauto. Qed.

Lemma it_goto s r : item s (r, 0) ->
  (r_lhs (grule g r) = g_start g /\ s = 0) \/
  (r_lhs (grule g r) <> g_start g /\ exists q, edge s (r_lhs (grule g r)) q).
Proof.
  intros Hi. pose proof (au_reach g p A _ _ Hi) as Hc. inversion Hc as [k Hk|k k' Hk Hs]; subst.
  - destruct Hk as [_ [Hz|(-> & _ & Hr)]]; [simpl in Hz; lia|]. left. split; auto. simpl in Hr.
    apply in_rules_of in Hr as (ru & Hru & Hl). now rewrite (grule_nth _ _ _ Hru).
  - right. destruct Hs as (Y & HY & Hr & _). simpl in Hr. apply in_rules_of in Hr as (ru & Hru & Hl).
    rewrite (grule_nth _ _ _ Hru), Hl. destruct (au_next g p A _ _ _ (it_closed _ _ Hk) HY) as [q Hq].
    split; [|eauto]. now destruct (edge_sym g W p A _ _ _ Hq) as (_ & _ & _ & ?).
Qed.

Lemma fst_snoc {T} (l : list T) d x : nth_error l d = Some x -> firstn (S d) l = firstn d l ++ [x].
Proof.
  revert d. induction l as [|y l IH]; intros [|d] H; try discriminate; simpl in *; [congruence|].
  f_equal. now apply IH.
Qed.
Lemma skip_nth {T} (l : list T) d x : nth_error l d = Some x -> skipn d l = x :: skipn (S d) l.
Proof.
  revert d. induction l as [|y l IH]; intros [|d] H; try discriminate; simpl in *; [congruence|]. now rewrite (IH d H).
Qed.

Lemma aspine_split Xs2 : forall Xs1 stk, aspine stk (Xs1 ++ Xs2) ->
  exists st1 st2, stk = st1 ++ st2 /\ List.length st1 = List.length Xs1 /\ aspine st2 Xs2.
Proof.
  induction Xs1 as [|X Xs1 IH]; intros stk H; [exists [], stk; auto|].
  simpl in H. inversion H as [|stk' Xs' X' q t Hs Hq]; subst. destruct (IH _ Hs) as (st1 & st2 & -> & L & H2).
  exists ((q, t) :: st1), st2. simpl. splits; auto.
Qed.

Lemma aspine_len stk Xs : aspine stk Xs -> List.length stk = List.length Xs.
Proof. induction 1; simpl; auto. Qed.

(** ** Reaching the end from the middle of a parse *)
(** [v] is an input that completes the enclosing rules once rule [r], begun below
    [gamma], has been reduced. *)
Definition completes (gamma : list nat) (r d : nat) (v : list (nat * unit)) : Prop :=
  exists gb, gamma = gb ++ map fst (firstn d (r_rhs (grule g r))) /\ lr0 g gb r 0 /\ la_of v < g_nterm g /\
    ((r_lhs (grule g r) = g_start g /\ gb = [] /\ v = []) \/
     r_lhs (grule g r) <> g_start g /\ forall stk q t, aspine stk (rev gb) -> edge (top stk) (r_lhs (grule g r)) q ->
       exists r' c, asteps ((q, t) :: stk, v) c /\ afinal r' c).

Lemma lr0_dot gamma r d : lr0 g gamma r d -> d <= rlen r.
Proof.
  destruct 1 as [r ru Hr Hl|gamma r ru d X al H Hr Hn|gamma r ru d X al q qu H Hr Hn Hq Hl]; try lia.
  unfold ActFacts.rlen. rewrite (grule_nth _ _ _ Hr). assert (d < List.length (r_rhs ru)) by (apply nth_error_Some; congruence). lia.
Qed.

Lemma finish_from gamma r d v stk us : lr1 g gamma r d (la_of v) -> completes gamma r d v ->
  aspine stk (rev gamma) -> derives_all g (direct g) (map fst (skipn d (r_rhs (grule g r)))) us ->
  exists r' c, asteps (stk, flat_map yield us ++ v) c /\ afinal r' c.
Proof.
  intros H1 (gb & Eg & Hb & Hv & Hc) Hsp Hus.
  pose proof (lr1_lr0 g _ _ _ _ H1) as H0. pose proof (lr0_dot _ _ _ H0) as Hd.
  pose proof (aspine_path g p unit _ _ Hsp) as Hp. rewrite rev_involutive in Hp.
  assert (Lk : look (top stk) (r, d) (la_of v)).
  { apply (look_of g p A). eapply (lr1_spread g p A); eauto. }
  destruct (machine_follows g W p A unit) as [_ MF].
  destruct (MF _ _ Hus r d stk (rev gamma) v eq_refl Hd Hsp Lk Hv) as (st1 & S1 & Sp1 & Et & El & Lk1).
  assert (Efull : rev (map fst (skipn d (r_rhs (grule g r)))) ++ rev gamma = rev (map fst (r_rhs (grule g r))) ++ rev gb).
  { rewrite <- !rev_app_distr. f_equal. rewrite Eg, <- app_assoc, <- map_app, firstn_skipn. reflexivity. }
  rewrite Efull in Sp1. pose proof (au_range g p A _ _ (look_of_item p _ _ _ Lk1)) as Hr.
  assert (Hraw : raw (top (st1 ++ stk)) (la_of v) (Reduce r)) by now constructor.
  destruct (aspine_split _ _ _ Sp1) as (sa & sb & Es & Ls & Sb). rewrite rev_length, map_length in Ls.
  destruct Hc as [(Hs & -> & ->)|[Hst Hc]].
  - exists r, (st1 ++ stk, []). rewrite app_nil_r in S1 |- *. split; auto. unfold AbsFacts.afinal. cbn [fst snd la_of] in *. splits; auto.
    apply aspine_len in Sp1. rewrite Sp1, app_nil_r, rev_length, map_length. reflexivity.
  - pose proof (aspine_path g p unit _ _ Sb) as Pb. rewrite rev_involutive in Pb.
    destruct (it_goto _ _ (lr0_item g p A _ _ _ Hb _ Pb)) as [[Hst0 _]|(_ & q & Hq)]; [contradiction|].
    destruct (Hc sb q (TNode r (rev (map snd sa))) Sb Hq) as (r' & c & S2 & F). exists r', c. split; auto.
      eapply asteps_trans; [exact S1|]. econstructor; [|exact S2]. apply as_reduce. rewrite Es. constructor; auto.
      now rewrite <- Es.
Qed.

Lemma lr0_completed gamma r d : all_derive -> lr0 g gamma r d ->
  exists v, lr1 g gamma r d (la_of v) /\ completes gamma r d v.
Proof.
  intros HP. induction 1 as [r ru Hr Hl|gamma r ru d X al H IH Hr Hn|gamma r ru d X al q qu H IH Hr Hn Hq Hl].
  - exists []. split; [econstructor; eauto|]. exists []. rewrite (grule_nth _ _ _ Hr). splits; auto.
    + econstructor; eauto.
    + apply (nterm_pos g W).
  - destruct IH as (v & H1 & gb & Eg & Hb & Hv & Hc). exists v. split; [econstructor; eauto|].
    exists gb. splits; auto. pose proof (grule_nth _ _ _ Hr) as Er. rewrite Er in Eg |- *.
    rewrite (fst_snoc _ _ _ Hn), map_app, app_assoc, <- Eg. reflexivity.
  - destruct IH as (v & H1 & C). destruct (all_derive_list r ru (S d) HP Hr) as [us Hus].
    destruct (direct_first g unit) as [_ DF]. destruct (DF _ _ Hus) as [D1 D2].
    exists (flat_map yield us ++ v). split; [|exists gamma; splits].
    + destruct (flat_map yield us) as [|[a m] w] eqn:Y; simpl.
      * eapply lr1_null; eauto.
      * eapply lr1_first; eauto. now destruct (D2 _ _ _ eq_refl).
    + simpl. now rewrite app_nil_r.
    + econstructor; eauto.
    + destruct (flat_map yield us) as [|[a m] w] eqn:Y; simpl.
      * now destruct C as (? & _ & _ & ? & _).
      * eapply is_term_lt; eauto. now destruct (D2 _ _ _ eq_refl).
    + right. pose proof (grule_nth _ _ _ Hq) as Eq. rewrite Eq, Hl. split.
      { apply (au_nostart g p A r ru X al Hr). eapply nth_error_In; eauto. }
      intros stk q' t Hsp He. pose proof (grule_nth _ _ _ Hr) as Er.
      apply (finish_from (gamma ++ [X]) r (S d) v ((q', t) :: stk) us).
      * econstructor; eauto.
      * destruct C as (gb & Eg & Hb & Hv & Hc). exists gb. splits; auto. rewrite Er in Eg |- *.
        rewrite (fst_snoc _ _ _ Hn), map_app, app_assoc, <- Eg. reflexivity.
      * rewrite rev_app_distr. simpl. now constructor.
      * now rewrite Er.
Qed.

(** ** What can follow a stack *)
Definition follows (gamma : list nat) (b : nat) : Prop :=
  exists r ru d, nth_error (g_rules g) r = Some ru /\
    ((lr0 g gamma r d /\ first_all g b (map fst (skipn d (r_rhs ru)))) \/
     (lr1 g gamma r d b /\ nullable_all g (map fst (skipn d (r_rhs ru))))).

(** The same, through the item whose dot has just passed the last symbol. *)
Definition follows_last (gamma : list nat) (X b : nat) : Prop :=
  exists r ru d al, nth_error (g_rules g) r = Some ru /\ nth_error (r_rhs ru) d = Some (X, al) /\
    ((lr0 g gamma r d /\ first_all g b (map fst (skipn (S d) (r_rhs ru)))) \/
     (lr1 g gamma r d b /\ nullable_all g (map fst (skipn (S d) (r_rhs ru))))).

Lemma follows_first gamma0 r d b : lr0 g gamma0 r d -> forall gamma X ru, gamma0 = gamma ++ [X] ->
  nth_error (g_rules g) r = Some ru -> first_all g b (map fst (skipn d (r_rhs ru))) -> follows_last gamma X b.
Proof.
  induction 1 as [r ru0 Hr Hl|gamma0 r ru0 d Y al H IH Hr Hn|gamma0 r ru0 d Y al q qu H IH Hr Hn Hq Hl];
    intros gamma X ru Eg Hru Hf.
  - now destruct gamma.
  - apply app_inj_tail in Eg as [-> ->]. assert (ru = ru0) as -> by congruence. exists r, ru0, d, al. splits; auto.
  - apply (IH gamma X ru0 Eg Hr). rewrite (skip_nth _ _ _ Hn). simpl. apply f_here. rewrite <- Hl.
    assert (ru = qu) as -> by congruence. apply (f_rule g b q qu); auto.
Qed.

Lemma follows_null gamma0 r d b : lr1 g gamma0 r d b -> forall gamma X ru, gamma0 = gamma ++ [X] ->
  nth_error (g_rules g) r = Some ru -> nullable_all g (map fst (skipn d (r_rhs ru))) -> follows_last gamma X b.
Proof.
  induction 1 as [r ru0 Hr Hl|gamma0 r ru0 d b Y al H IH Hr Hn|gamma0 r ru0 d Y al q qu b H Hr Hn Hq Hl Hf|
                  gamma0 r ru0 d Y al q qu b H IH Hr Hn Hq Hl Hnl];
    intros gamma X ru Eg Hru Hu.
  - now destruct gamma.
  - apply app_inj_tail in Eg as [-> ->]. assert (ru = ru0) as -> by congruence. exists r, ru0, d, al. splits; auto.
  - eapply (follows_first gamma0 r d b H gamma X ru0 Eg Hr). rewrite (skip_nth _ _ _ Hn). simpl. apply f_skip; auto.
    rewrite <- Hl. assert (ru = qu) as -> by congruence. apply (n_rule g q qu); auto.
  - apply (IH gamma X ru0 Eg Hr). rewrite (skip_nth _ _ _ Hn). simpl. constructor; auto.
    rewrite <- Hl. assert (ru = qu) as -> by congruence. apply (n_rule g q qu); auto.
Qed.

Lemma follows_snoc gamma X b : follows (gamma ++ [X]) b -> follows_last gamma X b.
Proof.
  intros (r & ru & d & Hr & [[H Hf]|[H Hn]]).
  - eapply follows_first; eauto.
  - eapply follows_null; eauto.
Qed.

Lemma lr1_over gamma r b ru : nth_error (g_rules g) r = Some ru -> lr1 g gamma r 0 b -> forall d, d <= List.length (r_rhs ru) ->
  lr1 g (gamma ++ map fst (firstn d (r_rhs ru))) r d b.
Proof.
  intros Hr H. induction d as [|d IH]; intros Hd; [simpl; now rewrite app_nil_r|].
  destruct (nth_error (r_rhs ru) d) as [[X al]|] eqn:En; [|apply nth_error_None in En; lia].
  rewrite (fst_snoc _ _ _ En), map_app, app_assoc. simpl. econstructor; eauto. apply IH. lia.
Qed.

(** Reducing is right for every lookahead that can follow the result. *)
Lemma follows_reduce gamma r ru b : nth_error (g_rules g) r = Some ru -> follows (gamma ++ [r_lhs ru]) b ->
  lr1 g (gamma ++ map fst (r_rhs ru)) r (List.length (r_rhs ru)) b.
Proof.
  intros Hr H. apply follows_snoc in H as (r0 & ru0 & d & al & Hr0 & Hn & Hc).
  rewrite <- (firstn_all (r_rhs ru)) at 1. apply lr1_over; auto.
  destruct Hc as [[H0 Hf]|[H1 Hu]]; [eapply lr1_first; eauto|eapply lr1_null; eauto].
Qed.

(** ** Reductions on any lookahead *)
Inductive anyred : cfg -> cfg -> Prop :=
| anyred_intro st1 st2 r q : item (top (st1 ++ st2)) (r, rlen r) -> r_lhs (grule g r) <> g_start g ->
    List.length st1 = rlen r -> edge (top st2) (r_lhs (grule g r)) q ->
    anyred (st1 ++ st2) ((q, TNode r (rev (map snd st1))) :: st2).

Inductive chain : nat -> cfg -> cfg -> Prop :=
| chain_0 c : chain 0 c c
| chain_S n c c' c'' : anyred c c' -> chain n c' c'' -> chain (S n) c c''.

Inductive halts (b : nat) : nat -> cfg -> Prop :=
| h_shift stk q : raw (top stk) b (Shift q) -> halts b 0 stk
| h_final stk r : raw (top stk) b (Reduce r) -> r_lhs (grule g r) = g_start g -> halts b 0 stk
| h_red n stk stk' : ared b stk stk' -> halts b n stk' -> halts b (S n) stk.

Lemma steps_halt c c' r : asteps c c' -> afinal r c' -> exists n, halts (la_of (snd c)) n (fst c).
Proof.
  induction 1 as [[stk inp]|c c' c'' S H IH]; intros F.
  - destruct F as (Ei & R & L & _). cbn [fst snd] in *. subst inp. exists 0. eapply h_final; eauto.
  - destruct (IH F) as [n Hn]. destruct S as [stk a m inp q R|stk stk' inp R]; cbn [fst snd la_of] in *.
    + exists 0. eapply h_shift; eauto.
    + exists (S n). eapply h_red; eauto.
Qed.

Lemma halts_fun (U : single g p) b n stk : halts b n stk -> forall n', halts b n' stk -> n = n'.
Proof.
  induction 1 as [stk q R|stk r R L|n stk stk' R H IH]; intros n' H'; inversion H' as [stk0 q' R'|stk0 r' R' L'|n0 stk0 stk0' R' H0]; subst; auto;
    try (pose proof (raw_range g p A _ _ _ R) as Hr).
  - exfalso. inversion R' as [u1 u2 r q0 R1 N1 L1 E1 Ea Eb]; subst. pose proof (U _ _ _ _ Hr R R1). discriminate.
  - exfalso. inversion R' as [u1 u2 r0 q0 R1 N1 L1 E1 Ea Eb]; subst. pose proof (U _ _ _ _ Hr R R1) as E. injection E as ->. contradiction.
  - exfalso. pose proof (raw_range g p A _ _ _ R') as Hr. inversion R as [u1 u2 r0 q0 R1 N1 L1 E1 Ea Eb]; subst. pose proof (U _ _ _ _ Hr R' R1). discriminate.
  - exfalso. pose proof (raw_range g p A _ _ _ R') as Hr. inversion R as [u1 u2 r0 q0 R1 N1 L1 E1 Ea Eb]; subst. pose proof (U _ _ _ _ Hr R' R1) as E. injection E as ->. contradiction.
  - f_equal. apply IH. assert (Hr : top stk < ns) by (inversion R; subst; eapply raw_range; eauto).
    now rewrite (ared_fun g p A unit U _ _ _ _ Hr R R').
Qed.

Lemma anyred_spine c c' Xs : aspine c Xs -> anyred c c' -> exists Xs' r, aspine c' Xs' /\
  exists gb, rev Xs = gb ++ map fst (r_rhs (grule g r)) /\ rev Xs' = gb ++ [r_lhs (grule g r)] /\ r < List.length (g_rules g) /\
  forall b, raw (top c) b (Reduce r) -> ared b c c'.
Proof.
  intros Hsp H. inversion H as [st1 st2 r q Hi Hl Hn He]; subst.
  assert (Hs : exists Xs1 Xs2, Xs = Xs1 ++ Xs2 /\ List.length Xs1 = List.length st1 /\ aspine st2 Xs2).
  { clear - Hsp. revert Xs Hsp. induction st1 as [|[s t] st1 IH]; intros Xs H; [exists [], Xs; auto|].
    simpl in H. inversion H as [|stk' Xs' X' q t' Hs Hq]; subst. destruct (IH _ Hs) as (X1 & X2 & -> & L & H2).
    exists (X' :: X1), X2. simpl. splits; auto. }
  destruct Hs as (Xs1 & Xs2 & -> & L1 & S2).
  exists (r_lhs (grule g r) :: Xs2), r. split; [now constructor|].
  pose proof (aspine_path g p unit _ _ Hsp) as Hp.
  pose proof (item_lr0 g p A _ _ _ Hp Hi) as H0. cbn [fst snd] in H0.
  assert (Hv : r < List.length (g_rules g)) by apply (au_valid g p A _ _ Hi).
  assert (Hg : exists gb, rev (Xs1 ++ Xs2) = gb ++ map fst (firstn (rlen r) (r_rhs (grule g r)))).
  { remember (rev (Xs1 ++ Xs2)) as gam eqn:Eg. clear - H0. remember (rlen r) as d. clear Heqd.
    induction H0 as [r ru Hr Hl|gamma r ru d X al H IH Hr Hn|gamma r ru d X al q qu H IH Hr Hn Hq Hl].
    - exists []. reflexivity.
    - destruct IH as [gb E]. exists gb. rewrite (grule_nth _ _ _ Hr) in *. rewrite (fst_snoc _ _ _ Hn), map_app, app_assoc, <- E. reflexivity.
    - exists gamma. simpl. now rewrite app_nil_r. }
  destruct Hg as [gb Eg]. unfold ActFacts.rlen in Eg. rewrite firstn_all in Eg. exists gb. splits; auto.
  - simpl. f_equal. rewrite rev_app_distr in Eg.
    apply (app_split_len) in Eg as [E _]; auto.
    apply (f_equal (@List.length nat)) in Eg. rewrite !app_length, !rev_length, map_length in Eg. unfold ActFacts.rlen in Hn. rewrite rev_length. lia.
  - intros b R. constructor; auto.
Qed.

Lemma chain_halts n c c' Xs : all_derive -> rules_of g (g_start g) <> [] -> aspine c Xs -> chain n c c' ->
  exists b m, b < g_nterm g /\ halts b m c /\ n <= m /\ follows (rev Xs) b.
Proof.
  intros HP HS Hsp H. revert Xs Hsp. induction H as [c|n c c' c'' R H IH]; intros Xs Hsp.
  - pose proof (aspine_path g p unit _ _ Hsp) as Hp.
    assert (Hk : exists k, item (top c) k).
    { destruct Hsp as [|stk Xs X q t Hs Hq].
      - destruct (rules_of g (g_start g)) as [|r l] eqn:Er; [contradiction|]. exists (r, 0). apply (au_start g p A). rewrite Er. now left.
      - destruct (au_edge g p A _ _ _ Hq) as (_ & k & Hi & HX). exists (kadv k). simpl. eapply (au_goto g p A); eauto. }
    destruct Hk as [[r d] Hi]. pose proof (item_lr0 g p A _ _ _ Hp Hi) as H0. cbn [fst snd] in H0.
    destruct (lr0_completed _ _ _ HP H0) as (v & H1 & C).
    assert (Hr : nth_error (g_rules g) r = Some (grule g r)) by (apply nth_grule; apply (au_valid g p A _ _ Hi)).
    destruct (all_derive_list r _ d HP Hr) as [us Hus].
    destruct (finish_from _ _ _ _ c us H1 C) as (r' & cf & S & F); auto; [now rewrite rev_involutive|].
    apply steps_halt with (r := r') in S as [m Hm]; auto. cbn [fst snd] in Hm.
    destruct (direct_first g unit) as [_ DF]. destruct (DF _ _ Hus) as [D1 D2].
    exists (la_of (flat_map yield us ++ v)), m. splits; auto; [| lia |].
    + destruct (flat_map yield us) as [|[a u] w] eqn:Y; simpl.
      * now destruct C as (? & _ & _ & ? & _).
      * eapply is_term_lt; eauto. now destruct (D2 _ _ _ eq_refl).
    + exists r, (grule g r), d. split; auto. destruct (flat_map yield us) as [|[a u] w] eqn:Y; simpl.
      * right. auto.
      * left. split; auto. now destruct (D2 _ _ _ eq_refl).
  - destruct (anyred_spine _ _ _ Hsp R) as (Xs' & r & Sp' & gb & E1 & E2 & Hr & Hred).
    destruct (IH _ Sp') as (b & m & Hb & Hm & Hle & Hf). exists b, (S m).
    assert (Hru : nth_error (g_rules g) r = Some (grule g r)) by now apply nth_grule.
    rewrite E2 in Hf. pose proof (follows_reduce _ _ _ _ Hru Hf) as H1. rewrite <- E1 in H1.
    pose proof (aspine_path g p unit _ _ Hsp) as Hp.
    assert (Hraw : raw (top c) b (Reduce r)).
    { constructor; auto. apply (look_of g p A). eapply (lr1_spread g p A); eauto. }
    splits; auto; [eapply h_red; eauto|lia|]. exists r, (grule g r), (List.length (r_rhs (grule g r))). split; auto.
    right. split; auto. rewrite skipn_all. constructor.
Qed.

(** ** Bounded search *)
Lemma pigeon (D : nat -> Prop) (Q : nat -> nat -> Prop) :
  (forall i, D i \/ ~ D i) -> (forall b n n', Q b n -> Q b n' -> n = n') ->
  forall k l i0, List.length l <= k ->
  (forall i, i0 <= i -> D i -> exists b n, In b l /\ Q b n /\ i <= n) -> exists N, ~ D N.
Proof.
  intros Dec Fun. induction k as [|k IH]; intros l i0 Hk H.
  - destruct (Dec i0) as [Hd|]; [|eauto]. destruct (H i0 (le_n _) Hd) as (b & n & Hb & _). destruct l; [destruct Hb|simpl in Hk; lia].
  - destruct (Dec i0) as [Hd|]; [|eauto]. destruct (H i0 (le_n _) Hd) as (b & n & Hb & Hq & Hn).
    apply (IH (remove Nat.eq_dec b l) (S n)).
    + pose proof (remove_length_lt Nat.eq_dec l b Hb). lia.
    + intros i Hi Hdi. destruct (H i) as (b' & n' & Hb' & Hq' & Hn'); [lia|auto|]. exists b', n'. splits; auto.
      apply in_in_remove; auto. intros ->. rewrite (Fun _ _ _ Hq Hq') in Hi. lia.
Qed.

Theorem reductions_bounded (D : nat -> Prop) c Xs : single g p -> all_derive -> rules_of g (g_start g) <> [] -> aspine c Xs ->
  (forall i, D i \/ ~ D i) -> (forall i, D i -> exists c', chain i c c') -> exists N, ~ D N.
Proof.
  intros U HP HS Hsp Dec H. apply (pigeon D (fun b n => halts b n c) Dec) with (k := g_nterm g) (l := seq 0 (g_nterm g)) (i0 := 0).
  - intros b n n' H1 H2. eapply halts_fun; eauto.
  - now rewrite seq_length.
  - intros i _ Hi. destruct (H i Hi) as [c' Hc]. destruct (chain_halts _ _ _ _ HP HS Hsp Hc) as (b & m & Hb & Hm & Hle & _).
    exists b, m. splits; auto. apply in_seq. lia.
Qed.
End Halt.
