(** Grammars that differ only in the order of the rules added for optional symbols: the items,
    the lookaheads and the moves are the same (C31, C38). *)
From Verif Require Import Base Syntax BaseFacts FrontEnd First States Actions Spec WfGrammar ActFacts FaultSpec LalrFacts.
From Coq Require Import Sorting.Permutation FinFun.

(** Rule [r] of [g2] is rule [phi r] of [g1]; the first [n] rules are in their places, the others
    are empty without a precedence or have one symbol, each another. *)
Record reord (n : nat) (g1 g2 : grammar) (phi psi : nat -> nat) : Prop := {
  rd_syms : g_syms g2 = g_syms g1;
  rd_nterm : g_nterm g2 = g_nterm g1;
  rd_dflt : g_dflt g2 = g_dflt g1;
  rd_start : g_start g2 = g_start g1;
  rd_error : g_error g2 = g_error g1;
  rd_wild : g_wild g2 = g_wild g1;
  rd_fe : g_fe g2 = set_rules (g_fe g1) (f_rules (g_fe g2));
  rd_len : List.length (g_rules g2) = List.length (g_rules g1);
  rd_rule : forall r, nth_error (g_rules g2) r = nth_error (g_rules g1) (phi r);
  rd_back : forall r, nth_error (g_rules g1) r = nth_error (g_rules g2) (psi r);
  rd_psi : forall r, phi (psi r) = r;
  rd_phi : forall r, psi (phi r) = r;
  rd_low : forall r, r < n -> phi r = r;
  rd_low' : forall r, r < n -> psi r = r;
  rd_added : forall r ru, n <= r -> nth_error (g_rules g1) r = Some ru -> r_rhs ru = [] /\ r_prec ru = None \/ exists X al, r_rhs ru = [(X, al)];
  rd_once : forall r q ru qu X al bl, n <= r -> n <= q -> nth_error (g_rules g1) r = Some ru -> nth_error (g_rules g1) q = Some qu ->
    r_rhs ru = [(X, al)] -> r_rhs qu = [(X, bl)] -> r = q }.

Section One.
Context (n : nat) (g1 g2 : grammar) (phi psi : nat -> nat) (RD : reord n g1 g2 phi psi).

Lemma rd_high r : n <= r -> n <= phi r.
Proof. intros H. destruct (Nat.lt_ge_cases (phi r) n) as [L|L]; auto. pose proof (rd_low' _ _ _ _ _ RD _ L) as E. rewrite (rd_phi _ _ _ _ _ RD) in E. lia. Qed.
Lemma rd_high' r : n <= r -> n <= psi r.
Proof. intros H. destruct (Nat.lt_ge_cases (psi r) n) as [L|L]; auto. pose proof (rd_low _ _ _ _ _ RD _ L) as E. rewrite (rd_psi _ _ _ _ _ RD) in E. lia. Qed.

Lemma rd_sym : reord n g2 g1 psi phi.
Proof.
  destruct RD as [R1 R2 R3 R4 R5 R6 R7 R8 R9 R10 R11 R12 R13 R14 R15 R16]. constructor; auto.
  - rewrite R7. cbn. now destruct (g_fe g1).
  - intros r ru H. rewrite R9. apply R15. now apply rd_high.
  - intros r q ru qu X al bl Hr Hq. rewrite !R9. intros H1 H2 H3 H4. assert (E : phi r = phi q) by (eapply R16; eauto using rd_high). rewrite <- (R12 r), E. apply R12.
Qed.
Lemma rd_gsym a : gsym g2 a = gsym g1 a. Proof. unfold gsym. now rewrite (rd_syms _ _ _ _ _ RD). Qed.
Lemma rd_kind a : kind_at g2 a = kind_at g1 a. Proof. unfold kind_at. now rewrite (rd_syms _ _ _ _ _ RD). Qed.
Lemma rd_grule r : grule g2 r = grule g1 (phi r).
Proof.
  unfold grule. pose proof (rd_rule _ _ _ _ _ RD r) as E. destruct (nth_error (g_rules g1) (phi r)) as [ru|] eqn:E1.
  - now rewrite (nth_error_nth _ _ _ E), (nth_error_nth _ _ _ E1).
  - apply nth_error_None in E, E1. now rewrite !nth_overflow.
Qed.
Lemma rd_member a X : member g2 a X <-> member g1 a X.
Proof. unfold member, is_term. now rewrite !rd_kind. Qed.
Lemma rd_nullable : (forall X, nullable g2 X -> nullable g1 X) /\ (forall Xs, nullable_all g2 Xs -> nullable_all g1 Xs).
Proof.
  apply nullable_both.
  - intros r ru H _ IH. rewrite (rd_rule _ _ _ _ _ RD) in H. eapply n_rule; eauto.
  - constructor.
  - constructor; auto.
Qed.
Lemma rd_first a : (forall X, first g2 a X -> first g1 a X) /\ (forall Xs, first_all g2 a Xs -> first_all g1 a Xs).
Proof.
  apply first_both.
  - intros X H. apply f_term. now apply rd_member.
  - intros r ru H _ IH. rewrite (rd_rule _ _ _ _ _ RD) in H. eapply f_rule; eauto.
  - intros X Xs _ IH. now apply f_here.
  - intros X Xs H _ IH. apply f_skip; auto. now apply rd_nullable.
Qed.
Lemma rd_lr0 gamma r d : lr0 g2 gamma r d -> lr0 g1 gamma (phi r) d.
Proof.
  induction 1 as [r ru H Hs|gamma r ru d X al _ IH H HX|gamma r ru d X al q qu _ IH H HX Hq E].
  - eapply lr0_start; [rewrite <- (rd_rule _ _ _ _ _ RD); eauto|]. now rewrite <- (rd_start _ _ _ _ _ RD).
  - eapply lr0_shift; eauto. now rewrite <- (rd_rule _ _ _ _ _ RD).
  - eapply lr0_closure; eauto; rewrite <- (rd_rule _ _ _ _ _ RD); eauto.
Qed.
Lemma rd_lr1 gamma r d b : lr1 g2 gamma r d b -> lr1 g1 gamma (phi r) d b.
Proof.
  induction 1 as [r ru H Hs|gamma r ru d b X al _ IH H HX|gamma r ru d X al q qu b H0 H HX Hq E HF|gamma r ru d X al q qu b _ IH H HX Hq E HN].
  - eapply lr1_start; [rewrite <- (rd_rule _ _ _ _ _ RD); eauto|]. now rewrite <- (rd_start _ _ _ _ _ RD).
  - eapply lr1_shift; eauto. now rewrite <- (rd_rule _ _ _ _ _ RD).
  - eapply lr1_first; [apply rd_lr0; eauto| | | | |apply rd_first; eauto]; try rewrite <- (rd_rule _ _ _ _ _ RD); eauto.
  - eapply lr1_null; eauto; try rewrite <- (rd_rule _ _ _ _ _ RD); eauto. now apply rd_nullable.
Qed.
Definition ren_move (h : nat -> nat) (m : move) : move := match m with MShift X => MShift X | MReduce r => MReduce (h r) end.
End One.

Section Two.
Context (n : nat) (g1 g2 : grammar) (phi psi : nat -> nat) (RD : reord n g1 g2 phi psi).
Let DR := rd_sym _ _ _ _ _ RD.

Lemma rd_lr0_iff gamma r d : lr0 g2 gamma r d <-> lr0 g1 gamma (phi r) d.
Proof. split; [now apply (rd_lr0 _ _ _ _ _ RD)|]. intros H. apply (rd_lr0 _ _ _ _ _ DR) in H. now rewrite (rd_phi _ _ _ _ _ RD) in H. Qed.
Lemma rd_lr1_iff gamma r d b : lr1 g2 gamma r d b <-> lr1 g1 gamma (phi r) d b.
Proof. split; [now apply (rd_lr1 _ _ _ _ _ RD)|]. intros H. apply (rd_lr1 _ _ _ _ _ DR) in H. now rewrite (rd_phi _ _ _ _ _ RD) in H. Qed.
Lemma rd_alike gamma gamma' : alike g2 gamma gamma' -> alike g1 gamma gamma'.
Proof. intros H r d. rewrite <- (rd_psi _ _ _ _ _ RD r), <- !rd_lr0_iff. apply H. Qed.
Lemma rd_offers gamma a m : offers g2 gamma a m -> offers g1 gamma a (ren_move phi m).
Proof.
  intros [r ru d X al H1 H2 H3 H4|gamma' r ru H1 H2 H3 H4]; cbn.
  - eapply of_shift; [apply rd_lr0_iff; eauto|rewrite <- (rd_rule _ _ _ _ _ RD); eauto|eauto|]. now apply (rd_member _ _ _ _ _ RD).
  - eapply of_reduce; [apply rd_alike; eauto|rewrite <- (rd_rule _ _ _ _ _ RD); eauto|apply rd_lr1_iff; eauto|]. now rewrite <- (rd_nterm _ _ _ _ _ RD).
Qed.
Lemma rd_says a m : says_prec g1 a (ren_move phi m) = says_prec g2 a m.
Proof. destruct m; cbn; [now rewrite (rd_gsym _ _ _ _ _ RD)|now rewrite (rd_grule _ _ _ _ _ RD)]. Qed.
End Two.

Lemma lr0_end g gamma r d : lr0 g gamma r d -> forall ru X al, nth_error (g_rules g) r = Some ru -> nth_error (r_rhs ru) (d - 1) = Some (X, al) -> 0 < d -> exists gamma0, gamma = gamma0 ++ [X].
Proof.
  intros H. destruct H as [r ru H Hs|gamma r ru d X al _ H HX|gamma r ru d X al q qu _ H HX Hq E]; intros ru' X' al' R1 R2 L; try lia.
  rewrite R1 in H. injection H as ->. replace (S d - 1) with d in R2 by lia. exists gamma. congruence.
Qed.

Section Order.
Context (n : nat) (g1 g2 : grammar) (phi psi : nat -> nat) (RD : reord n g1 g2 phi psi).
Let DR := rd_sym _ _ _ _ _ RD.

(** Two added rules with precedences are never both possible. *)
Lemma one_added gamma a r q : offers g1 gamma a (MReduce r) -> offers g1 gamma a (MReduce q) ->
  r_prec (grule g1 r) <> None -> r_prec (grule g1 q) <> None -> n <= r -> n <= q -> r = q.
Proof.
  intros H1 H2 P1 P2 L1 L2. inversion H1 as [|gm1 r0 ru A1 R1 I1 T1]; subst r0. inversion H2 as [|gm2 q0 qu A2 R2 I2 T2]; subst q0.
  rewrite (grule_nth _ _ _ R1) in P1. rewrite (grule_nth _ _ _ R2) in P2.
  destruct (rd_added _ _ _ _ _ RD _ _ L1 R1) as [[_ E]|(X & al & E1)]; [contradiction|]. destruct (rd_added _ _ _ _ _ RD _ _ L2 R2) as [[_ E]|(Y & bl & E2)]; [contradiction|].
  rewrite E1 in I1. rewrite E2 in I2. cbn in I1, I2. apply lr1_lr0 in I1, I2. apply A1 in I1. apply A2 in I2.
  destruct (lr0_end _ _ _ _ I1 ru X al R1) as (g3 & E3); [now rewrite E1|lia|]. destruct (lr0_end _ _ _ _ I2 qu Y bl R2) as (g4 & E4); [now rewrite E2|lia|].
  assert (X = Y) as -> by (apply app_inj_tail with (x := g3) (y := g4); congruence). eapply (rd_once _ _ _ _ _ RD); eauto.
Qed.
(** The order of two possible rules with precedences is kept. *)
Lemma same_order gamma a r q : offers g2 gamma a (MReduce r) -> offers g2 gamma a (MReduce q) ->
  r_prec (grule g2 r) <> None -> r_prec (grule g2 q) <> None -> phi r < phi q <-> r < q.
Proof.
  intros H1 H2 P1 P2. destruct (Nat.lt_ge_cases r n) as [L1|L1], (Nat.lt_ge_cases q n) as [L2|L2].
  - now rewrite !(rd_low _ _ _ _ _ RD).
  - rewrite (rd_low _ _ _ _ _ RD r) by auto. pose proof (rd_high _ _ _ _ _ RD q L2). lia.
  - rewrite (rd_low _ _ _ _ _ RD q) by auto. pose proof (rd_high _ _ _ _ _ RD r L1). lia.
  - apply (rd_offers _ _ _ _ _ RD) in H1, H2. rewrite (rd_grule _ _ _ _ _ RD) in P1, P2. pose proof (one_added _ _ _ _ H1 H2 P1 P2 (rd_high _ _ _ _ _ RD _ L1) (rd_high _ _ _ _ _ RD _ L2)) as E.
    assert (r = q) by (rewrite <- (rd_phi _ _ _ _ _ RD r), E; apply (rd_phi _ _ _ _ _ RD)). subst q. lia.
Qed.
Lemma ren_psi m : ren_move phi (ren_move psi m) = m.
Proof. destruct m; cbn; auto. now rewrite (rd_psi _ _ _ _ _ RD). Qed.
Lemma ren_inj m m' : ren_move phi m = ren_move phi m' -> m = m'.
Proof. intros E. destruct m, m'; cbn in E; try discriminate; injection E as E; [now subst|]. f_equal. rewrite <- (rd_phi _ _ _ _ _ RD r), E. apply (rd_phi _ _ _ _ _ RD). Qed.
Lemma offers_back gamma a m : offers g1 gamma a m -> exists m', m = ren_move phi m' /\ offers g2 gamma a m'.
Proof. intros H. exists (ren_move psi m). split; [now rewrite ren_psi|]. now apply (rd_offers _ _ _ _ _ DR). Qed.

Lemma rd_outranked gamma a i r q : offers g2 gamma a (MReduce r) -> offers g2 gamma a (MReduce q) ->
  r_prec (grule g2 r) <> None -> r_prec (grule g2 q) <> None ->
  outranked g1 gamma a i (Nat.max (phi r) (phi q)) -> outranked g2 gamma a i (Nat.max r q).
Proof.
  intros H1 H2 P1 P2 (m & j & v & Hm & Hs & L & HQ). destruct (offers_back _ _ _ Hm) as (m' & -> & Hm'). rewrite (rd_says _ _ _ _ _ RD) in Hs. exists m', j, v. splits; auto.
  destruct m' as [X|x]; auto. cbn in HQ. assert (P3 : r_prec (grule g2 x) <> None) by (cbn in Hs; congruence).
  pose proof (same_order _ _ _ _ Hm' H1 P3 P1). pose proof (same_order _ _ _ _ Hm' H2 P3 P2). lia.
Qed.
Lemma rd_open gamma a m m' : offers g2 gamma a m -> offers g2 gamma a m' -> open_choice g2 gamma a m m' -> open_choice g1 gamma a (ren_move phi m) (ren_move phi m').
Proof.
  intros H1 H2 HO. destruct m as [X|r], m' as [Y|q]; auto; unfold open_choice in *; cbn [ren_move] in *.
  - rewrite <- (rd_says _ _ _ _ _ RD a (MShift X)), <- (rd_says _ _ _ _ _ RD a (MReduce q)) in HO. exact HO.
  - rewrite <- (rd_says _ _ _ _ _ RD a (MReduce r)), <- (rd_says _ _ _ _ _ RD a (MShift Y)) in HO. exact HO.
  - pose proof (rd_says _ _ _ _ _ RD a (MReduce r)) as E1. pose proof (rd_says _ _ _ _ _ RD a (MReduce q)) as E2. cbn [ren_move] in E1, E2. rewrite E1, E2.
    destruct HO as [HO|[HO|(i & S1 & S2 & HN)]]; auto. right. right. exists i. splits; auto. intros HX. apply HN. eapply rd_outranked; eauto; cbn in S1, S2; congruence.
Qed.
Lemma rd_conflict gamma a : conflict_at g2 gamma a -> conflict_at g1 gamma a.
Proof.
  intros [(m & m' & H1 & H2 & Hne & HO)|(X & ms & H1 & H2 & H3)].
  - left. exists (ren_move phi m), (ren_move phi m'). splits; [now apply (rd_offers _ _ _ _ _ RD)|now apply (rd_offers _ _ _ _ _ RD)| |now apply rd_open]. intros E. apply Hne. now apply ren_inj.
  - right. exists X, ms. splits; auto; [exact (rd_offers _ _ _ _ _ RD _ _ _ H1)|]. now rewrite <- (rd_kind _ _ _ _ _ RD).
Qed.
Lemma rd_prefers gamma a r m : offers g2 gamma a (MReduce r) -> offers g2 gamma a m -> prefers g2 a r m -> prefers g1 a (phi r) (ren_move phi m).
Proof.
  intros Hr Hm (i & j & u & v & S1 & S2 & HQ). exists i, j, u, v. rewrite (rd_says _ _ _ _ _ RD a m), <- (rd_grule _ _ _ _ _ RD r). splits; auto.
  destruct HQ as [L|[-> HQ]]; auto. right. split; auto. destruct m as [X|q]; cbn; auto. cbn in S2.
  pose proof (same_order _ _ _ _ Hr Hm ltac:(congruence) ltac:(congruence)). pose proof (same_order _ _ _ _ Hm Hr ltac:(congruence) ltac:(congruence)). destruct HQ as [[L ->]|[L ->]]; [left|right]; split; auto; lia.
Qed.
End Order.

Section Same.
Context (n : nat) (g1 g2 : grammar) (phi psi : nat -> nat) (RD : reord n g1 g2 phi psi).
Let DR := rd_sym _ _ _ _ _ RD.

Lemma rd_lost r : lost g2 r -> lost g1 (phi r).
Proof.
  intros [L H]. split.
  - apply nth_error_Some. rewrite <- (rd_rule _ _ _ _ _ RD). now apply nth_error_Some.
  - intros gamma a HO. pose proof (rd_offers _ _ _ _ _ DR _ _ _ HO) as HO'. cbn in HO'. rewrite (rd_phi _ _ _ _ _ RD) in HO'. destruct (H _ _ HO') as (m & Hm & Hne & HP).
    exists (ren_move phi m). splits; [now apply (rd_offers _ _ _ _ _ RD)| |].
    + intros E. apply Hne. apply (ren_inj _ _ _ _ _ RD). exact E.
    + intros HQ. apply HP. pose proof (rd_prefers _ _ _ _ _ DR _ _ _ _ HO (rd_offers _ _ _ _ _ RD _ _ _ Hm) HQ) as HR. rewrite (rd_phi _ _ _ _ _ RD), (ren_psi _ _ _ _ _ DR) in HR. exact HR.
Qed.
Lemma rd_conflicting : conflicting g2 -> conflicting g1.
Proof. intros (gamma & a & H). exists gamma, a. now apply (rd_conflict _ _ _ _ _ RD). Qed.
End Same.
