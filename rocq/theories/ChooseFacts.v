(** In a grammar that chooses by the next token no state has two moves for a token (C52). *)
From Verif Require Import Base Syntax BaseFacts FrontEnd First States Actions Tables Spec WfGrammar ActFacts LalrFacts HaltFacts LimitRun FaultSpec.

(** What can follow a symbol *)
Inductive gfollow (g : grammar) (b : nat) : nat -> Prop :=
| gf_first r ru d X al : nth_error (g_rules g) r = Some ru -> nth_error (r_rhs ru) d = Some (X, al) -> first_all g b (map fst (skipn (S d) (r_rhs ru))) -> gfollow g b X
| gf_null r ru d X al : nth_error (g_rules g) r = Some ru -> nth_error (r_rhs ru) d = Some (X, al) -> nullable_all g (map fst (skipn (S d) (r_rhs ru))) -> gfollow g b (r_lhs ru) -> gfollow g b X.

Record chooser (g : grammar) : Prop := {
  ch_first : forall r ru X al l q qu, nth_error (g_rules g) r = Some ru -> r_rhs ru = (X, al) :: l -> nth_error (g_rules g) q = Some qu -> r_lhs qu <> X;
  ch_apart : forall r ru X al l q qu Y bl m, nth_error (g_rules g) r = Some ru -> r_rhs ru = (X, al) :: l -> nth_error (g_rules g) q = Some qu -> r_rhs qu = (Y, bl) :: m -> r_lhs ru = r_lhs qu -> r <> q ->
    X <> Y /\ forall a, member g a X -> ~ member g a Y;
  ch_empty : forall r ru q qu, nth_error (g_rules g) r = Some ru -> r_rhs ru = [] -> nth_error (g_rules g) q = Some qu -> r_rhs qu = [] -> r_lhs ru = r_lhs qu -> r = q;
  ch_follow : forall r ru q qu Y bl m a, nth_error (g_rules g) r = Some ru -> r_rhs ru = [] -> nth_error (g_rules g) q = Some qu -> r_rhs qu = (Y, bl) :: m -> r_lhs ru = r_lhs qu -> member g a Y -> ~ gfollow g a (r_lhs ru);
  ch_multi : forall r ru X al ms, nth_error (g_rules g) r = Some ru -> In (X, al) (r_rhs ru) -> kind_at g X = Some (KMulti ms) -> NoDup ms }.

Section Choose.
Context (g : grammar) (W : wf_grammar g) (CH : chooser g).
Notation rule_at r ru := (nth_error (g_rules g) r = Some ru).
Definition dotted (r d X : nat) : Prop := exists ru al, rule_at r ru /\ nth_error (r_rhs ru) d = Some (X, al).
Definition lhs_is (r X : nat) : Prop := exists ru, rule_at r ru /\ r_lhs ru = X.

Lemma lhs_fun r X Y : lhs_is r X -> lhs_is r Y -> X = Y.
Proof. intros (ru & H & <-) (ru' & H' & <-). congruence. Qed.
Lemma dotted_fun r d X Y : dotted r d X -> dotted r d Y -> X = Y.
Proof. intros (ru & al & H & E) (ru' & al' & H' & E'). congruence. Qed.
(** The first symbol of a rule has no rules itself. *)
Lemma first_final r q X : dotted r 0 X -> ~ lhs_is q X.
Proof. intros (ru & al & H & E) (qu & Hq & EX). destruct (r_rhs ru) as [|[Y bl] l] eqn:Er; [discriminate|]. cbn in E. injection E as -> ->. exact (ch_first g CH r ru X al l q qu H Er Hq EX). Qed.
Lemma lhs_no_member a r X : lhs_is r X -> ~ member g a X.
Proof.
  intros (ru & H & <-). destruct (wg_rule g W r ru H) as (HK & _). intros [[<- HT]|(ms & Hm & _)]; unfold is_term in *; congruence.
Qed.
Lemma item_rule gamma r d : lr0 g gamma r d -> exists ru, rule_at r ru.
Proof. induction 1; eauto. Qed.

(** The items of a state: those that were shifted, and the rules of the symbol after the dot *)
Lemma item_cases gamma r d : lr0 g gamma r d ->
  (d = 0 /\ gamma = [] /\ lhs_is r (g_start g)) \/
  (d = 0 /\ exists q e X, lr0 g gamma q (S e) /\ dotted q (S e) X /\ lhs_is r X) \/
  (exists gamma0 X e, gamma = gamma0 ++ [X] /\ d = S e /\ lr0 g gamma0 r e /\ dotted r e X).
Proof.
  induction 1 as [r ru H E|gamma r ru d X al H IH Hr Hn|gamma r ru d X al q qu H IH Hr Hn Hq E].
  - left. splits; auto. exists ru. auto.
  - right. right. exists gamma, X, d. splits; auto. exists ru, al. auto.
  - right. left. split; auto. destruct d as [|e].
    + exfalso. apply (first_final r q X); [exists ru, al; auto|exists qu; auto].
    + exists r, e, X. splits; auto; [exists ru, al; auto|exists qu; auto].
Qed.

Definition paired (r d r' d' : nat) : Prop :=
  (d = 0 /\ d' = 0 /\ exists X, lhs_is r X /\ lhs_is r' X) \/ (r = r' /\ d = d') \/ (d = 0 /\ exists X, dotted r' d' X /\ lhs_is r X) \/ (d' = 0 /\ exists X, dotted r d X /\ lhs_is r' X).
Lemma items_paired : forall gamma r d r' d', lr0 g gamma r d -> lr0 g gamma r' d' -> paired r d r' d'.
Proof.
  induction gamma as [|Z gamma IH] using rev_ind; intros r d r' d' H H'.
  - assert (K : forall r d, lr0 g [] r d -> d = 0 /\ lhs_is r (g_start g)).
    { clear - CH. intros r d H. assert (NS : forall r e, lr0 g [] r (S e) -> False).
      { intros q e HE. destruct (item_cases _ _ _ HE) as [(E & _)|[(E & _)|(g0 & X & e' & E & _)]]; try discriminate. now apply app_cons_not_nil in E. }
      destruct (item_cases _ _ _ H) as [(E & _ & HL)|[(E & q & e & X & HE & _)|(g0 & X & e' & E & _)]]; auto; [now apply NS in HE|now apply app_cons_not_nil in E]. }
    destruct (K _ _ H) as [-> L], (K _ _ H') as [-> L']. left. splits; eauto.
  - assert (KE : forall r d r' d', lr0 g gamma r d -> dotted r d Z -> lr0 g gamma r' d' -> dotted r' d' Z -> r = r' /\ d = d').
    { clear r d r' d' H H'. intros r d r' d' H HD H' HD'. destruct (IH _ _ _ _ H H') as [(-> & -> & X & L & L')|[[-> ->]|[(-> & X & HX & L)|(-> & X & HX & L)]]]; auto.
      - destruct (Nat.eq_dec r r') as [->|Hne]; auto. exfalso. destruct HD as (ru & al & Hr & Hn), HD' as (ru' & al' & Hr' & Hn'). destruct (r_rhs ru) as [|[A1 a1] l1] eqn:E1; [discriminate|]. destruct (r_rhs ru') as [|[A2 a2] l2] eqn:E2; [discriminate|].
        cbn in Hn, Hn'. injection Hn as -> ->. injection Hn' as -> ->. destruct L as (u1 & U1 & L1), L' as (u2 & U2 & L2). assert (u1 = ru) by congruence. assert (u2 = ru') by congruence. subst u1 u2.
        destruct (ch_apart g CH r ru Z al l1 r' ru' Z al' l2 Hr E1 Hr' E2 ltac:(congruence) Hne) as [HZ _]. now apply HZ.
      - exfalso. rewrite (dotted_fun _ _ _ _ HX HD') in L. now apply (first_final r r Z).
      - exfalso. rewrite (dotted_fun _ _ _ _ HX HD) in L. now apply (first_final r' r' Z). }
    assert (KS : forall r e, lr0 g (gamma ++ [Z]) r (S e) -> lr0 g gamma r e /\ dotted r e Z).
    { clear - CH. intros r e H. destruct (item_cases _ _ _ H) as [(E & _)|[(E & _)|(g0 & X & e' & E & E' & HL & HD)]]; try discriminate. injection E' as <-. apply app_inj_tail in E as [-> ->]. auto. }
    assert (KK : forall r e r' e', lr0 g (gamma ++ [Z]) r (S e) -> lr0 g (gamma ++ [Z]) r' (S e') -> r = r' /\ e = e').
    { intros q e q' e' A B. apply KS in A as [A1 A2]. apply KS in B as [B1 B2]. eapply KE; eauto. }
    assert (KC : forall r, lr0 g (gamma ++ [Z]) r 0 -> exists q e X, lr0 g (gamma ++ [Z]) q (S e) /\ dotted q (S e) X /\ lhs_is r X).
    { clear - CH. intros r H. destruct (item_cases _ _ _ H) as [(_ & E & _)|[(_ & q & e & X & HH)|(g0 & X & e' & E & E' & _)]]; [symmetry in E; now apply app_cons_not_nil in E|eauto|discriminate]. }
    destruct d as [|e], d' as [|e'].
    + left. apply KC in H as (q & e & X & A & B & C). apply KC in H' as (q' & e' & X' & A' & B' & C'). destruct (KK _ _ _ _ A A') as [<- <-]. rewrite <- (dotted_fun _ _ _ _ B B') in C'. splits; eauto.
    + right. right. left. apply KC in H as (q & e & X & A & B & C). destruct (KK _ _ _ _ A H') as [-> ->]. split; eauto.
    + right. right. right. apply KC in H' as (q & e' & X & A & B & C). destruct (KK _ _ _ _ A H) as [-> ->]. split; eauto.
    + right. left. destruct (KK _ _ _ _ H H') as [-> ->]. auto.
Qed.

Lemma lr1_follow gamma r d b : lr1 g gamma r d b -> b = 0 \/ exists X, lhs_is r X /\ gfollow g b X.
Proof.
  induction 1 as [r ru H E|gamma r ru d b X al H IH Hr Hn|gamma r ru d X al q qu b H Hr Hn Hq E HF|gamma r ru d X al q qu b H IH Hr Hn Hq E HN]; auto.
  - right. exists X. split; [exists qu; auto|]. exact (gf_first g b r ru d X al Hr Hn HF).
  - destruct IH as [->|(Y & (ru' & Hr' & EY) & HY)]; auto. right. exists X. split; [exists qu; auto|]. assert (ru' = ru) by congruence. subst ru' Y. exact (gf_null g b r ru d X al Hr Hn HN HY).
Qed.

Lemma member_pos r ru d X al : rule_at r ru -> nth_error (r_rhs ru) d = Some (X, al) -> ~ member g 0 X.
Proof.
  intros Hr Hn. apply nth_error_In in Hn. destruct (wg_rule g W r ru Hr) as (_ & _ & HX). destruct (HX _ _ Hn) as (_ & H0 & _). intros [[E _]|(ms & Hm & Hi)]; [congruence|]. now destruct (wg_multi g W X ms 0 Hm Hi) as (_ & ? & _).
Qed.
Lemma offers_reduce gamma a r : offers g gamma a (MReduce r) -> exists ru, rule_at r ru /\ lr0 g gamma r (List.length (r_rhs ru)) /\ (a = 0 \/ gfollow g a (r_lhs ru)).
Proof.
  intros H. inversion H as [|gamma' r' ru HA Hr HL Ha]; subst. exists ru. splits; auto; [apply HA; eapply lr1_lr0; eauto|].
  destruct (lr1_follow _ _ _ _ HL) as [->|(X & (ru' & Hr' & EX) & HX)]; auto. right. congruence.
Qed.
Lemma offers_shift gamma a X : offers g gamma a (MShift X) -> exists r ru d al, rule_at r ru /\ lr0 g gamma r d /\ nth_error (r_rhs ru) d = Some (X, al) /\ member g a X.
Proof. intros H. inversion H; subst. eauto 10. Qed.
Lemma dot_end r ru X : rule_at r ru -> ~ dotted r (List.length (r_rhs ru)) X.
Proof. intros H (ru' & al & H' & E). assert (ru' = ru) by congruence. subst ru'. rewrite (proj2 (nth_error_None _ _)) in E; [discriminate|lia]. Qed.

Lemma one_shift gamma a X Y : offers g gamma a (MShift X) -> offers g gamma a (MShift Y) -> X = Y.
Proof.
  intros H H'. apply offers_shift in H as (r & ru & d & al & Hr & HL & Hn & HM). apply offers_shift in H' as (q & qu & e & bl & Hq & HL' & Hn' & HM').
  assert (D : dotted r d X) by (exists ru, al; auto). assert (D' : dotted q e Y) by (exists qu, bl; auto).
  destruct (items_paired _ _ _ _ _ HL HL') as [(-> & -> & Z & L & L')|[[-> ->]|[(-> & Z & HZ & L)|(-> & Z & HZ & L)]]].
  - destruct (Nat.eq_dec r q) as [->|Hne]; [now apply (dotted_fun q 0)|]. exfalso. destruct (r_rhs ru) as [|[A1 a1] l1] eqn:E1; [discriminate|]. destruct (r_rhs qu) as [|[A2 a2] l2] eqn:E2; [discriminate|]. cbn in Hn, Hn'. injection Hn as -> ->. injection Hn' as -> ->.
    destruct L as (u1 & U1 & L1), L' as (u2 & U2 & L2). assert (u1 = ru) by congruence. assert (u2 = qu) by congruence. subst u1 u2. destruct (ch_apart g CH r ru X al l1 q qu Y bl l2 Hr E1 Hq E2 ltac:(congruence) Hne) as [_ HZ]. exact (HZ a HM HM').
  - now apply (dotted_fun q e).
  - exfalso. rewrite (dotted_fun _ _ _ _ HZ D') in L. now apply (lhs_no_member a r Y).
  - exfalso. rewrite (dotted_fun _ _ _ _ HZ D) in L. now apply (lhs_no_member a q X).
Qed.
Lemma shift_or_reduce gamma a X r : offers g gamma a (MShift X) -> ~ offers g gamma a (MReduce r).
Proof.
  intros H H'. apply offers_shift in H as (q & qu & d & al & Hq & HL & Hn & HM). apply offers_reduce in H' as (ru & Hr & HL' & HF). assert (D : dotted q d X) by (exists qu, al; auto).
  destruct (items_paired _ _ _ _ _ HL HL') as [(-> & E0 & Z & L & L')|[[-> ->]|[(-> & Z & HZ & L)|(E0 & Z & HZ & L)]]].
  - assert (E : r_rhs ru = []) by (now apply length_zero_iff_nil). destruct (r_rhs qu) as [|[A1 a1] l1] eqn:E1; [discriminate|]. cbn in Hn. injection Hn as -> ->.
    destruct L as (u1 & U1 & L1), L' as (u2 & U2 & L2). assert (u1 = qu) by congruence. assert (u2 = ru) by congruence. subst u1 u2. destruct HF as [->|HF].
    + apply (member_pos q qu 0 X al Hq); [now rewrite E1|exact HM].
    + eapply (ch_follow g CH r ru q qu X al l1 a); eauto. congruence.
  - now apply (dot_end r ru X).
  - now apply (dot_end r ru Z).
  - rewrite (dotted_fun _ _ _ _ HZ D) in L. now apply (lhs_no_member a r X).
Qed.
Lemma one_reduce gamma a r q : offers g gamma a (MReduce r) -> offers g gamma a (MReduce q) -> r = q.
Proof.
  intros H H'. apply offers_reduce in H as (ru & Hr & HL & _). apply offers_reduce in H' as (qu & Hq & HL' & _).
  destruct (items_paired _ _ _ _ _ HL HL') as [(E & E' & Z & L & L')|[[-> _]|[(E & Z & HZ & L)|(E & Z & HZ & L)]]]; auto.
  - apply length_zero_iff_nil in E, E'. destruct L as (u1 & U1 & L1), L' as (u2 & U2 & L2). assert (u1 = ru) by congruence. assert (u2 = qu) by congruence. subst u1 u2. eapply (ch_empty g CH); eauto. congruence.
  - exfalso. now apply (dot_end q qu Z).
  - exfalso. now apply (dot_end r ru Z).
Qed.
Theorem one_move gamma a m m' : offers g gamma a m -> offers g gamma a m' -> m = m'.
Proof.
  intros H H'. destruct m, m'; [f_equal; eapply one_shift; eauto|exfalso; eapply shift_or_reduce; eauto|exfalso; eapply shift_or_reduce; eauto|f_equal; eapply one_reduce; eauto].
Qed.
Lemma once gamma a X ms : offers g gamma a (MShift X) -> kind_at g X = Some (KMulti ms) -> count_occ Nat.eq_dec ms a < 2.
Proof.
  intros H HK. apply offers_shift in H as (q & qu & d & al & Hq & _ & Hn & _). pose proof (ch_multi g CH q qu X al ms Hq (nth_error_In _ _ Hn) HK) as ND. rewrite (NoDup_count_occ Nat.eq_dec) in ND. specialize (ND a). lia.
Qed.
Theorem chooser_quiet : ~ conflicting g /\ ~ looping_shift g.
Proof.
  split.
  - intros (gamma & a & [(m & m' & H & H' & Hne & _)|(X & ms & H & HK & HC)]); [apply Hne; eapply one_move; eauto|]. pose proof (once _ _ _ _ H HK). lia.
  - intros (gamma & a & X & Y & H & H' & _ & [Hne|(ms & HK & HC)]); [apply Hne; eapply one_shift; eauto|]. pose proof (once _ _ _ _ H HK). lia.
Qed.

(** ** Rules that are never reduced *)
Inductive reached : nat -> Prop :=
| rc_start : reached (g_start g)
| rc_rule r ru X al : rule_at r ru -> reached (r_lhs ru) -> In (X, al) (r_rhs ru) -> reached X.
Definition lively (Xs : list nat) : Prop := nullable_all g Xs \/ exists b, first_all g b Xs.

Lemma over gamma r ru : rule_at r ru -> lr0 g gamma r 0 -> forall d, d <= List.length (r_rhs ru) -> exists gamma', lr0 g gamma' r d.
Proof.
  intros Hr H. induction d as [|d IH]; intros Hd; [eauto|]. destruct IH as (gamma' & HG); [lia|]. destruct (nth_error (r_rhs ru) d) as [[X al]|] eqn:En; [|apply nth_error_None in En; lia]. exists (gamma' ++ [X]). econstructor; eauto.
Qed.
Lemma reached_item X : reached X -> forall r ru, rule_at r ru -> r_lhs ru = X -> exists gamma, lr0 g gamma r 0.
Proof.
  induction 1 as [|q qu X al Hq HR IH Hin]; intros r ru Hr E; [exists []; econstructor; eauto|]. destruct (IH q qu Hq eq_refl) as (gamma & HG). apply In_nth_error in Hin as (d & Hd).
  destruct (over gamma q qu Hq HG d) as (gamma' & HG'); [apply Nat.lt_le_incl, nth_error_Some; congruence|]. exists gamma'. eapply lr0_closure; eauto.
Qed.
Lemma item_look : (forall r ru, rule_at r ru -> forall d, lively (map fst (skipn d (r_rhs ru)))) -> forall gamma r d, lr0 g gamma r d -> exists b, lr1 g gamma r d b.
Proof.
  intros HL gamma r d H. induction H as [r ru H E|gamma r ru d X al H [b IH] Hr Hn|gamma r ru d X al q qu H [b IH] Hr Hn Hq E].
  - exists 0. econstructor; eauto.
  - exists b. econstructor; eauto.
  - destruct (HL r ru Hr (S d)) as [HN|[c HF]]; [exists b; eapply lr1_null; eauto|exists c; eapply lr1_first; eauto].
Qed.
Theorem chooser_needed : flat g -> (forall r ru, rule_at r ru -> reached (r_lhs ru)) -> (forall r ru, rule_at r ru -> forall d, lively (map fst (skipn d (r_rhs ru)))) -> forall r, ~ lost g r.
Proof.
  intros FL HR HL r [Hlt HN]. destruct (nth_error (g_rules g) r) as [ru|] eqn:Hr; [|apply nth_error_None in Hr; lia].
  destruct (reached_item _ (HR r ru Hr) r ru Hr eq_refl) as (gamma & HG). destruct (item_look HL _ _ _ HG) as (b & Hb). destruct (HN (gamma ++ map fst (firstn (List.length (r_rhs ru)) (r_rhs ru))) b) as (m & Hm & Hne & _).
  - pose proof (lr1_over g gamma r b ru Hr Hb (List.length (r_rhs ru)) (le_n _)) as H1. econstructor; eauto; [intros x y; reflexivity|eapply lr1_lt; eauto].
  - apply Hne. eapply one_move; [exact Hm|]. pose proof (lr1_over g gamma r b ru Hr Hb (List.length (r_rhs ru)) (le_n _)) as H1. econstructor; eauto; [intros x y; reflexivity|eapply lr1_lt; eauto].
Qed.
End Choose.
