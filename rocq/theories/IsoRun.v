(** The automata of two grammars that differ only in names and in the order of their rules decide
    alike: the same trees are read from corresponding states (C46). *)
From Coq Require Import Sorted.
From Verif Require Import Base Syntax BaseFacts FrontEnd First States Actions Tables Runtime Spec WfGrammar FirstFacts ClosureFacts AutoFacts LalrFacts ActFacts CompFacts GroupFacts TabFacts LookFacts PipeFacts RunFacts SoundFacts RefFacts
  FaultSpec FaultAct ReorderActs KeptFacts IsoFacts.

(** ** Corresponding states *)
Definition twin (g1 g2 : grammar) (S : nat -> nat -> Prop) (p1 p2 : pst) (s1 s2 : nat) : Prop :=
  exists gamma delta, path g1 p1 gamma s1 /\ path g2 p2 delta s2 /\ Forall2 S gamma delta.
Lemma twin_flip g1 g2 S p1 p2 s1 s2 : twin g1 g2 S p1 p2 s1 s2 -> twin g2 g1 (flip S) p2 p1 s2 s1.
Proof. intros (gm & de & P1 & P2 & HF). exists de, gm. splits; auto. now apply forall2_flip. Qed.

Section One.
Context (g1 g2 : grammar) (S R : nat -> nat -> Prop) (IO : iso g1 g2 S R) (p1 p2 : pst) (A1 : Aut g1 p1) (A2 : Aut g2 p2).
Notation twin := (twin g1 g2 S p1 p2).

Lemma twin_item s1 s2 r q d : twin s1 s2 -> R r q -> item p1 s1 (r, d) -> item p2 s2 (q, d).
Proof.
  intros (gm & de & P1 & P2 & HF) HR Hi. apply (lr0_item g2 p2 A2 de q d); auto. eapply (io_lr0 g1 g2 S R IO); eauto. exact (item_lr0 g1 p1 A1 gm s1 (r, d) P1 Hi).
Qed.
Lemma twin_post r d X : kvalid g1 (r, d) -> kpost g1 (r, d) = Some X -> exists q Y, R r q /\ kpost g2 (q, d) = Some Y /\ S X Y.
Proof.
  intros HV HX. destruct (nth_kpost g1 _ _ HV HX) as (ru & al & Hr & Hd & _). cbn [fst snd] in *. destruct (io_partner _ _ _ _ IO _ _ Hr) as (q & qu & HR & Hq & M). destruct (io_rhs S _ _ _ _ _ M Hd) as (Y & bl & HY & HS).
  exists q, Y. splits; auto. eapply kpost_nth; eauto.
Qed.
Lemma twin_step s1 s2 X t1 : twin s1 s2 -> edge g1 p1 s1 X t1 -> exists Y t2, S X Y /\ edge g2 p2 s2 Y t2 /\ twin t1 t2.
Proof.
  intros T E. destruct (au_edge g1 p1 A1 _ _ _ E) as (_ & [r d] & Hi & HX). destruct (twin_post r d X (au_valid g1 p1 A1 _ _ Hi) HX) as (q & Y & HR & HY & HS).
  destruct (au_next g2 p2 A2 s2 (q, d) Y (twin_item _ _ _ _ _ T HR Hi) HY) as [t2 E2]. exists Y, t2. splits; auto. destruct T as (gm & de & P1 & P2 & HF). exists (gm ++ [X]), (de ++ [Y]). splits; [econstructor; eauto|econstructor; eauto|]. apply Forall2_app; auto.
Qed.
Lemma twin_path gm s1 : path g1 p1 gm s1 -> exists de s2, path g2 p2 de s2 /\ Forall2 S gm de.
Proof.
  induction 1 as [|gm s X t P1 (de & s2 & P2 & HF) E]; [exists [], 0; split; constructor|]. destruct (twin_step s s2 X t) as (Y & t2 & HS & E2 & _); auto; [exists gm, de; auto|].
  exists (de ++ [Y]), t2. split; [econstructor; eauto|apply Forall2_app; auto].
Qed.
End One.

Section Two.
Context (g1 g2 : grammar) (S R : nat -> nat -> Prop) (IO : iso g1 g2 S R) (p1 p2 : pst) (A1 : Aut g1 p1) (A2 : Aut g2 p2).
Notation twin := (twin g1 g2 S p1 p2).
Let OI := iso_flip _ _ _ _ IO.

Lemma twin_fun s1 s2 s2' : twin s1 s2 -> twin s1 s2' -> s2 = s2'.
Proof.
  intros T T'. assert (HX : forall s s', twin s1 s -> twin s1 s' -> forall k, item p2 s k -> item p2 s' k).
  { intros s s' H H' [q d] Hi. destruct (io_from _ _ _ _ IO q) as [r HR]; [exact (proj1 (au_valid g2 p2 A2 _ _ Hi))|]. apply (twin_item g1 g2 S R IO p1 p2 A1 A2 s1 s' r q d H' HR).
    exact (twin_item g2 g1 (flip S) (flip R) OI p2 p1 A2 A1 s s1 q r d (twin_flip _ _ _ _ _ _ _ H) HR Hi). }
  assert (HL : forall s, twin s1 s -> s < List.length (p_states p2)) by (intros s (gm & de & _ & P2 & _); eapply path_range; eauto).
  apply (au_uniq g2 p2 A2); auto. intros k. split; apply HX; auto.
Qed.
Lemma twin_0 : twin 0 0.
Proof. exists [], []. splits; constructor. Qed.
Lemma twin_look s1 s2 r q d a b : twin s1 s2 -> R r q -> S a b -> look p1 s1 (r, d) a -> look p2 s2 (q, d) b.
Proof.
  intros T HR Hab H. rewrite (au_look g1 p1 A1) in H. apply (spread_lr1 g1 p1 A1) in H as (gm & P1 & H). cbn [fst snd] in H.
  destruct (io_lr1_has _ _ _ _ IO _ _ _ _ H) as (de & q' & b' & HR' & HG & HB & HL). pose proof (io_rfun _ _ _ _ IO _ _ _ HR HR') as <-. pose proof (io_fun _ _ _ _ IO _ _ _ Hab HB) as <-.
  destruct (twin_path g1 g2 S R IO p1 p2 A1 A2 gm s1 P1) as (de' & s2' & P2 & HG'). pose proof (forall2_det _ (io_fun _ _ _ _ IO) _ _ _ HG HG') as <-.
  rewrite (twin_fun s1 s2 s2' T ltac:(exists gm, de; auto)). rewrite (au_look g2 p2 A2). eapply lr1_spread; eauto.
Qed.
Lemma twin_goto s1 s2 X Y t1 : twin s1 s2 -> S X Y -> edge g1 p1 s1 X t1 -> exists t2, edge g2 p2 s2 Y t2 /\ twin t1 t2.
Proof. intros T HS E. destruct (twin_step g1 g2 S R IO p1 p2 A1 A2 _ _ _ _ T E) as (Y' & t2 & HS' & E2 & T2). rewrite (io_fun _ _ _ _ IO _ _ _ HS HS'). eauto. Qed.

(** ** Corresponding actions *)
Definition det_alike (d d' : detail) : Prop :=
  match d, d' with
  | Shift s, Shift t | SSConflict s, SSConflict t | SHResolved s, SHResolved t => twin s t
  | Reduce r, Reduce q | SRConflict r, SRConflict q | RRConflict r, RRConflict q | RDResolved r, RDResolved q => R r q
  | Accept, Accept | Error, Error | NotUsed, NotUsed => True
  | _, _ => False
  end.
Lemma covers_alike X Y a b : S X Y -> S a b -> covers g1 X a -> covers g2 Y b.
Proof.
  unfold covers. intros HS Hab H. destruct (io_kind _ _ _ _ IO _ _ HS) as (k1 & k2 & K1 & K2 & K). rewrite K1 in H. rewrite K2. destruct k1, k2; cbn in K; try contradiction; try (subst a; eapply (io_fun _ _ _ _ IO); eauto; fail).
  apply In_nth_error in H as [i Hi]. destruct (forall2_nth _ _ _ K _ _ Hi) as (c & Hc & HSc). rewrite (io_fun _ _ _ _ IO _ _ _ Hab HSc). eapply nth_error_In; eauto.
Qed.
Lemma rlen_alike r q : R r q -> rlen g2 q = rlen g1 r.
Proof. intros HR. unfold rlen. destruct (io_rule _ _ _ _ IO _ _ HR) as (ru & qu & H1 & H2 & M). rewrite (grule_nth _ _ _ H1), (grule_nth _ _ _ H2). symmetry. eapply io_len; eauto. Qed.
Lemma raw_alike s1 s2 a b d : twin s1 s2 -> S a b -> raw g1 p1 s1 a d -> exists d', raw g2 p2 s2 b d' /\ det_alike d d'.
Proof.
  intros T Hab H. inversion H as [X t m E C|r c HL Hc|E]; subst.
  - destruct (twin_step g1 g2 S R IO p1 p2 A1 A2 _ _ _ _ T E) as (Y & t2 & HS & E2 & T2). exists (Shift t2). split; auto. econstructor; eauto. eapply covers_alike; eauto.
  - destruct (io_to _ _ _ _ IO r) as [q HR]; [apply look_item in HL; exact (proj1 (au_valid g1 p1 A1 _ _ HL))|]. exists (Reduce q). split; auto. constructor; [|now apply (io_nterm _ _ _ _ IO _ _ Hab)].
    rewrite (rlen_alike _ _ HR). eapply twin_look; eauto.
  - rewrite (io_fun _ _ _ _ IO _ _ _ Hab (io_start _ _ _ _ IO)). exists Accept. split; [|exact Logic.I]. constructor. eapply twin_fun; [exact T|apply twin_0].
Qed.
Lemma det_fun d d' d'' : det_alike d d' -> det_alike d d'' -> d' = d''.
Proof. destruct d, d', d''; cbn; try contradiction; auto; intros H H'; f_equal; solve [eapply twin_fun; eauto|eapply (io_rfun _ _ _ _ IO); eauto]. Qed.
End Two.

Lemma det_flip g1 g2 S R p1 p2 d d' : det_alike g1 g2 S R p1 p2 d d' -> det_alike g2 g1 (flip S) (flip R) p2 p1 d' d.
Proof. destruct d, d'; cbn; auto; try contradiction; apply twin_flip. Qed.

(** ** Two sorted lists that correspond in some order correspond in this order. *)
Lemma sorted_match (R : nat -> nat -> Prop) : (forall r q q', R r q -> R r q' -> q = q') -> (forall r r' q, R r q -> R r' q -> r = r') -> forall l m, StronglySorted lt l -> StronglySorted lt m ->
  (forall r, In r l -> exists q, In q m /\ R r q) -> (forall q, In q m -> exists r, In r l /\ R r q) ->
  (forall r r' q q', In r l -> In r' l -> R r q -> R r' q' -> r < r' -> q < q') -> Forall2 R l m.
Proof.
  intros RF RI. induction l as [|a l IH]; intros m HS HM H1 H2 HO.
  - destruct m as [|b m]; [constructor|]. destruct (H2 b (or_introl eq_refl)) as (r & [] & _).
  - destruct (H1 a (or_introl eq_refl)) as (q & Hq & Ha). destruct m as [|b m]; [destruct Hq|]. inversion HS as [|? ? HS' FS]; subst. inversion HM as [|? ? HM' FM]; subst. rewrite Forall_forall in FS, FM.
    assert (Hab : R a b).
    { destruct Hq as [->|Hq]; auto. exfalso. destruct (H2 b (or_introl eq_refl)) as (r & [<-|Hr] & Hb).
      - pose proof (RF _ _ _ Ha Hb) as ->. specialize (FM _ Hq). lia.
      - pose proof (HO a r q b (or_introl eq_refl) (or_intror Hr) Ha Hb (FS _ Hr)). specialize (FM _ Hq). lia. }
    constructor; auto. apply IH; auto.
    + intros r Hr. destruct (H1 r (or_intror Hr)) as (q' & [<-|Hq'] & Hrq); eauto. pose proof (RI _ _ _ Hab Hrq) as ->. specialize (FS _ Hr). lia.
    + intros q' Hq'. destruct (H2 q' (or_intror Hq')) as (r & [<-|Hr] & Hrq); eauto. pose proof (RF _ _ _ Hab Hrq) as ->. specialize (FM _ Hq'). lia.
    + intros r r' q1 q2 Hr Hr'. apply HO; now right.
Qed.
Lemma cands_sorted la ot rs : NoDup rs -> sorted_by action_less (cands la ot rs) -> StronglySorted lt rs.
Proof.
  unfold cands. intros ND H. assert (HS : sorted_by action_less (map (rd la) rs)) by (destruct ot; auto; now inversion H). clear H. induction rs as [|r rs IH]; constructor.
  - apply IH; [now inversion ND|now inversion HS].
  - inversion ND as [|? ? N1 N2]; subst. unfold sorted_by in HS. cbn in HS. inversion HS as [|? ? H1 H2]; subst. rewrite Forall_forall in *. intros q Hq. specialize (H2 (rd la q) (in_map _ _ _ Hq)). apply action_less_false in H2 as [H2|[_ H2]]; [cbn in H2; lia|]. apply key_less_false in H2. cbn in H2.
    destruct (Nat.eq_dec r q) as [->|]; [contradiction|lia].
Qed.

Section Decide.
Context (g1 g2 : grammar) (S R : nat -> nat -> Prop) (IO : iso g1 g2 S R) (OR : ordered g1 R) (NC : ~ conflicting g1).
Context (p1 p31 p41 : pst) (t1 : tables) (P1 : Pipe g1 p1 p31 p41 t1) (p2 p32 p42 : pst) (t2 : tables) (P2 : Pipe g2 p2 p32 p42 t2).
Notation twin := (twin g1 g2 S p1 p2).
Notation alike := (det_alike g1 g2 S R p1 p2).
Let W1 := pp_wf _ _ _ _ _ P1.
Let W2 := pp_wf _ _ _ _ _ P2.
Let A1 := pp_aut _ _ _ _ _ P1.
Let A2 := pp_aut _ _ _ _ _ P2.
Let OI := iso_flip _ _ _ _ IO.

(** Resolving conflicts *)
Definition act_alike (a b : nat) (x y : action) : Prop := a_la x = a /\ a_la y = b /\ alike (a_det x) (a_det y).
Lemma conflict_alike a b x y x' y' : S a b -> alike x x' -> alike y y' -> exists u v e u' v', resolve_conflict g1 a x y = (u, v, e) /\ resolve_conflict g2 b x' y' = (u', v', e) /\ alike u u' /\ alike v v'.
Proof.
  intros Hab Hx Hy. destruct (resolve_conflict g1 a x y) as [[u v] e] eqn:E1. destruct (resolve_conflict g2 b x' y') as [[u' v'] e'] eqn:E2. exists u, v, e, u', v'.
  assert (HX : e' = e /\ alike u u' /\ alike v v').
  { destruct x, x'; cbn in Hx; try contradiction; destruct y, y'; cbn in Hy; try contradiction; cbn [resolve_conflict] in E1, E2; try (injection E1 as <- <- <-; injection E2 as <- <- <-; cbn; auto; fail).
    - rewrite (io_prec _ _ _ _ IO _ _ Hab), (io_grule _ _ _ _ IO _ _ Hy) in E2. destruct (sy_prec (gsym g1 a)) as [px|], (r_prec (grule g1 r)) as [py|]; try (injection E1 as <- <- <-; injection E2 as <- <- <-; cbn; auto; fail).
      destruct (precedence_cmp px py); injection E1 as <- <- <-; injection E2 as <- <- <-; cbn; auto.
    - rewrite (io_grule _ _ _ _ IO _ _ Hx), (io_grule _ _ _ _ IO _ _ Hy) in E2. destruct (r_prec (grule g1 r)) as [px|], (r_prec (grule g1 r1)) as [py|]; try (injection E1 as <- <- <-; injection E2 as <- <- <-; cbn; auto; fail).
      destruct (precedence_cmp px py); injection E1 as <- <- <-; injection E2 as <- <- <-; cbn; auto. }
  destruct HX as (-> & HX & HX'). auto.
Qed.
Lemma against_alike a b : S a b -> forall l l' x x' n u v k u' v' k', Forall2 (act_alike a b) l l' -> act_alike a b x x' -> resolve_against g1 x l n = (u, v, k) -> resolve_against g2 x' l' n = (u', v', k') ->
  k = k' /\ act_alike a b u u' /\ Forall2 (act_alike a b) v v'.
Proof.
  intros Hab. induction l as [|y l IH]; intros l' x x' n u v k u' v' k' HF HX E1 E2; inversion HF as [|? y' ? m HY HF']; subst; cbn [resolve_against] in E1, E2.
  - injection E1 as <- <- <-. injection E2 as <- <- <-. auto.
  - destruct HX as (X1 & X2 & X3), HY as (Y1 & Y2 & Y3). rewrite X1, Y1, Nat.eqb_refl in E1. rewrite X2, Y2, Nat.eqb_refl in E2.
    destruct (conflict_alike a b _ _ _ _ Hab X3 Y3) as (u1 & v1 & e & u1' & v1' & C1 & C2 & H1 & H2). rewrite C1 in E1. rewrite C2 in E2.
    destruct (resolve_against g1 (mkAct a u1) l (if e then Datatypes.S n else n)) as [[u2 v2] n2] eqn:F1. destruct (resolve_against g2 (mkAct b u1') m (if e then Datatypes.S n else n)) as [[u2' v2'] n2'] eqn:F2.
    destruct (IH _ _ _ _ _ _ _ _ _ _ HF' (conj eq_refl (conj eq_refl H1) : act_alike a b (mkAct a u1) (mkAct b u1')) F1 F2) as (I1 & I2 & I3). injection E1 as <- <- <-. injection E2 as <- <- <-. splits; auto. constructor; auto. split; auto.
Qed.
Lemma all_alike a b : S a b -> forall k l l' n u m u' m', Forall2 (act_alike a b) l l' -> resolve_all g1 k l n = (u, m) -> resolve_all g2 k l' n = (u', m') -> m = m' /\ Forall2 (act_alike a b) u u'.
Proof.
  intros Hab. induction k as [|k IH]; intros l l' n u m u' m' HF E1 E2; cbn [resolve_all] in E1, E2.
  - injection E1 as <- <-. injection E2 as <- <-. auto.
  - inversion HF as [|x x' l1 l1' HX HF']; subst; [injection E1 as <- <-; injection E2 as <- <-; auto|].
    destruct (resolve_against g1 x l1 n) as [[x1 l2] n2] eqn:F1. destruct (resolve_against g2 x' l1' n) as [[x1' l2'] n2'] eqn:F2. destruct (against_alike a b Hab _ _ _ _ _ _ _ _ _ _ _ HF' HX F1 F2) as (<- & I2 & I3).
    destruct (resolve_all g1 k l2 n2) as [l3 n3] eqn:G1. destruct (resolve_all g2 k l2' n2) as [l3' n3'] eqn:G2. destruct (IH _ _ _ _ _ _ _ I3 G1 G2) as [<- J]. injection E1 as <- <-. injection E2 as <- <-. auto.
Qed.

(** What the lists say about corresponding symbols *)
Lemma twin_lt s1 s2 : twin s1 s2 -> s1 < List.length (p_states p1) /\ s2 < List.length (p_states p2).
Proof. intros (gm & de & H1 & H2 & _). split; eapply path_range; eauto. Qed.
Lemma start_no a : kind_at g1 a <> Some KNonTerm -> a <> g_start g1.
Proof. intros H ->. exact (H (proj1 (wg_start g1 W1))). Qed.
Lemma kind_no a b : S a b -> kind_at g1 a <> Some KNonTerm -> kind_at g2 b <> Some KNonTerm.
Proof. intros Hab H. destruct (io_kind _ _ _ _ IO _ _ Hab) as (k1 & k2 & K1 & K2 & K). rewrite K1 in H. rewrite K2. destruct k1, k2; cbn in K; congruence || contradiction. Qed.
Theorem group_alike s1 s2 a b : twin s1 s2 -> S a b -> kind_at g1 a <> Some KNonTerm -> Forall2 (act_alike a b) (group a (acts p31 s1)) (group b (acts p32 s2)).
Proof.
  intros T Hab K. destruct (twin_lt _ _ T) as [L1 L2]. pose proof (start_no a K) as N1. assert (N2 : b <> g_start g2) by (intros ->; exact (kind_no _ _ Hab K (proj1 (wg_start g2 W2)))).
  destruct (settled_cands g1 p1 p31 s1 (pp_settled _ _ _ _ _ P1 s1 L1) a N1) as (ot1 & rs1 & [ND1 SO1] & HT1 & HR1 & G1). destruct (settled_cands g2 p2 p32 s2 (pp_settled _ _ _ _ _ P2 s2 L2) b N2) as (ot2 & rs2 & [ND2 SO2] & HT2 & HR2 & G2).
  assert (FW : forall d, raw g1 p1 s1 a d -> exists d', raw g2 p2 s2 b d' /\ alike d d') by (intros d; apply (raw_alike g1 g2 S R IO p1 p2 A1 A2); auto).
  assert (BW : forall d, raw g2 p2 s2 b d -> exists d', raw g1 p1 s1 a d' /\ alike d' d).
  { intros d H. destruct (raw_alike g2 g1 (flip S) (flip R) OI p2 p1 A2 A1 s2 s1 b a d (twin_flip _ _ _ _ _ _ _ T) Hab H) as (d' & H' & HA). exists d'. split; auto. apply det_flip in HA. exact HA. }
  assert (HC : Forall2 (act_alike a b) (cands a ot1 rs1) (cands b ot2 rs2)).
  { unfold cands. apply Forall2_app.
    - destruct ot1 as [x|].
      + destruct (FW (Shift x)) as (d' & H' & HA); [now apply HT1|]. destruct d'; try contradiction. apply HT2 in H'. subst ot2. constructor; auto. split; auto.
      + destruct ot2 as [y|]; [|constructor]. destruct (BW (Shift y)) as (d' & H' & HA); [now apply HT2|]. destruct d'; try contradiction. apply HT1 in H'. discriminate.
    - assert (HRR : Forall2 R rs1 rs2).
      { apply sorted_match; [apply IO|apply IO|eapply cands_sorted; eauto|eapply cands_sorted; eauto| | |].
        - intros r Hr. destruct (FW (Reduce r)) as (d' & H' & HA); [now apply HR1|]. destruct d' as [| |q| | | | | | |]; try contradiction. exists q. split; auto. now apply HR2.
        - intros q Hq. destruct (BW (Reduce q)) as (d' & H' & HA); [now apply HR2|]. destruct d' as [| |r| | | | | | |]; try contradiction. exists r. split; auto. now apply HR1.
        - intros r r' q q' Hr Hr' HRq HRq' L. destruct (two_reduce g1 W1 p1 A1 NC s1 a r r' L1 (proj2 (HR1 r) Hr) (proj2 (HR1 r') Hr')) as [E|(gm & O1 & O2 & Q1 & Q2)]; [lia|]. apply (OR gm a r r' q q'); auto. }
      clear - HRR. induction HRR; constructor; auto. split; auto. }
  rewrite <- (forall2_lt _ _ _ HC) in G2. exact (proj2 (all_alike a b Hab _ _ _ 0 _ _ _ _ HC G1 G2)).
Qed.
Lemma in_alike s1 s2 a b d : twin s1 s2 -> S a b -> kind_at g1 a <> Some KNonTerm -> In (mkAct a d) (acts p31 s1) -> exists d', alike d d' /\ In (mkAct b d') (acts p32 s2).
Proof.
  intros T Hab K H. pose proof (group_alike s1 s2 a b T Hab K) as HG. assert (HI : In (mkAct a d) (group a (acts p31 s1))) by (apply group_in; auto).
  destruct (GramFacts.forall2_in_l _ _ _ HG _ HI) as ([b' d'] & H' & (_ & E & HA)). apply group_in in H' as [H' _]. cbn in *. subst b'. eauto.
Qed.
Lemma in_alike_back s1 s2 a b d : twin s1 s2 -> S a b -> kind_at g1 a <> Some KNonTerm -> In (mkAct b d) (acts p32 s2) -> exists d', alike d' d /\ In (mkAct a d') (acts p31 s1).
Proof.
  intros T Hab K H. pose proof (forall2_flip _ _ _ (group_alike s1 s2 a b T Hab K)) as HG. assert (HI : In (mkAct b d) (group b (acts p32 s2))) by (apply group_in; auto).
  destruct (GramFacts.forall2_in_l _ _ _ HG _ HI) as ([b' d'] & H' & (E & _ & HA)). apply group_in in H' as [H' _]. cbn in *. subst b'. eauto.
Qed.
Context (FB : forall X Y c, S X Y -> sy_fb (gsym g1 X) = Some c -> exists c', sy_fb (gsym g2 Y) = Some c' /\ S c c') (FB0 : forall X Y, S X Y -> sy_fb (gsym g1 X) = None -> sy_fb (gsym g2 Y) = None).
Lemma fb_kind X c : sy_fb (gsym g1 X) = Some c -> kind_at g1 c <> Some KNonTerm.
Proof.
  intros H. unfold gsym in H. destruct (nth_error (g_syms g1) X) as [s|] eqn:E; [rewrite (nth_error_nth _ _ _ E) in H; eapply (wg_fb g1 W1); eauto|]. apply nth_error_None in E. rewrite nth_overflow in H by auto. discriminate.
Qed.
Theorem ract_alike s1 s2 a d : ract g1 (acts p31 s1) a d -> forall b, twin s1 s2 -> S a b -> kind_at g1 a <> Some KNonTerm -> exists d', ract g2 (acts p32 s2) b d' /\ alike d d'.
Proof.
  assert (NE : forall a b, twin s1 s2 -> S a b -> kind_at g1 a <> Some KNonTerm -> ~ entry_at (acts p31 s1) a -> ~ entry_at (acts p32 s2) b).
  { intros a0 b T Hab K N (d' & H & He). destruct (in_alike_back s1 s2 a0 b d' T Hab K H) as (d0 & HA & H0). apply N. exists d0. split; auto. destruct d0, d'; cbn in HA; try contradiction; auto. }
  induction 1 as [a d Hin HL HN|a Hin|a c d HN Hfb HR IH|a HN Hfb]; intros b T Hab K.
  - destruct (in_alike s1 s2 a b d T Hab K Hin) as (d' & HA & H'). exists d'. split; auto. apply ra_own; auto; [destruct d, d'; cbn in HA; try contradiction; auto|]. intros HE. destruct (in_alike_back s1 s2 a b Error T Hab K HE) as (d0 & HA0 & H0). destruct d0; try contradiction.
  - destruct (in_alike s1 s2 a b Error T Hab K Hin) as (d' & HA & H'). destruct d'; try contradiction. exists Error. split; auto. now apply ra_err.
  - destruct (FB a b c Hab Hfb) as (c' & Hfb' & Hcc). destruct (IH c' T Hcc (fb_kind _ _ Hfb)) as (d' & H' & HA). exists d'. split; auto. eapply ra_fb; eauto.
  - exists Error. split; [|exact Logic.I]. apply ra_none; eauto.
Qed.

(** ** Corresponding trees *)
Context {M1 M2 : Type}.
Inductive tree_alike : tree M1 -> tree M2 -> Prop :=
| ta_tok a b m m' : S a b -> tree_alike (TTok a m) (TTok b m')
| ta_node r q ts us : R r q -> trees_alike ts us -> tree_alike (TNode r ts) (TNode q us)
with trees_alike : list (tree M1) -> list (tree M2) -> Prop :=
| ta_nil : trees_alike [] []
| ta_cons t u ts us : tree_alike t u -> trees_alike ts us -> trees_alike (t :: ts) (u :: us).
Scheme tree_alike_mind := Minimality for tree_alike Sort Prop with trees_alike_mind := Minimality for trees_alike Sort Prop.
Combined Scheme tree_alike_both from tree_alike_mind, trees_alike_mind.

Notation tok_alike := (Forall2 (fun (x : nat * M1) (y : nat * M2) => S (fst x) (fst y))).
Lemma yield_alike : (forall t u, tree_alike t u -> tok_alike (yield t) (yield u)) /\ (forall ts us, trees_alike ts us -> tok_alike (flat_map yield ts) (flat_map yield us)).
Proof.
  apply tree_alike_both; intros; cbn; auto. now apply Forall2_app.
Qed.
Lemma la_alike w w' b b' : tok_alike w w' -> S b b' -> S (la_at w b) (la_at w' b').
Proof. intros H Hb. destruct H as [|[x m] [y m'] w w' H HF]; cbn; auto. Qed.
Definition tok_term (w : list (nat * M1)) : Prop := forall a m, In (a, m) w -> kind_at g1 a <> Some KNonTerm.
Lemma term_at w b : tok_term w -> kind_at g1 b <> Some KNonTerm -> kind_at g1 (la_at w b) <> Some KNonTerm.
Proof. destruct w as [|[a m] w]; cbn; auto. intros H _. apply (H a m). now left. Qed.
Lemma term_app w w' : tok_term (w ++ w') -> tok_term w /\ tok_term w'.
Proof. intros H. split; intros a m Hi; apply (H a m), in_app_iff; auto. Qed.

Theorem kept_alike :
  (forall s1 X tr b, kept g1 p1 p31 s1 X tr b -> forall s2 Y tr2 b2, tok_term (yield tr) -> kind_at g1 b <> Some KNonTerm -> twin s1 s2 -> S X Y -> tree_alike tr tr2 -> S b b2 -> kept g2 p2 p32 s2 Y tr2 b2) /\
  (forall s1 Xs ts b s1', kept_all g1 p1 p31 s1 Xs ts b s1' -> forall s2 Ys us b2, tok_term (flat_map yield ts) -> kind_at g1 b <> Some KNonTerm -> twin s1 s2 -> Forall2 S Xs Ys -> trees_alike ts us -> S b b2 ->
     exists s2', kept_all g2 p2 p32 s2 Ys us b2 s2' /\ twin s1' s2').
Proof.
  apply kept_both.
  - intros s X a m b q He Hr s2 Y tr2 b2 HO Kb T HS HA Hb. inversion HA as [? a2 ? m2 Ha|]; subst. destruct (twin_goto g1 g2 S R IO p1 p2 A1 A2 _ _ _ _ _ T HS He) as (q2 & He2 & Tq).
    destruct (ract_alike s s2 a _ Hr a2 T Ha) as (d' & Hd & HAd); [apply (HO a m); now left|]. destruct d'; try contradiction. cbn in HAd. rewrite (twin_fun g1 g2 S R IO p1 p2 A1 A2 _ _ _ HAd Tq) in Hd. econstructor; eauto.
  - intros s r ru ts b s' Hru _ IH Hra s2 Y tr2 b2 HO Kb T HS HA Hb. inversion HA as [|? q ? us HR HAs]; subst. destruct (io_known _ _ _ _ IO _ _ _ HR Hru) as (qu & Hq & M).
    destruct (IH s2 (map fst (r_rhs qu)) us b2) as (s2' & HK & T'); auto; [apply M|]. destruct (ract_alike s' s2' b _ Hra b2 T' Hb Kb) as (d' & Hd & HAd). destruct d'; try contradiction. cbn in HAd. rewrite (io_rfun _ _ _ _ IO _ _ _ HAd HR) in Hd.
    rewrite (io_fun _ _ _ _ IO _ _ _ HS (ma_lhs _ _ _ M)). econstructor; eauto.
  - intros s b s2 Ys us b2 _ _ T HF HA _. inversion HF; subst. inversion HA; subst. exists s2. split; auto. constructor.
  - intros s X q Xs tr ts b s' _ IH He _ IHs s2 Ys us b2 HO Kb T HF HA Hb. inversion HF as [|? Y ? Ys' HS HF']; subst. inversion HA as [|? u ? us' Hu Hus]; subst. cbn in HO. apply term_app in HO as [O1 O2].
    destruct (twin_goto g1 g2 S R IO p1 p2 A1 A2 _ _ _ _ _ T HS He) as (q2 & He2 & Tq). destruct (IHs q2 Ys' us' b2) as (s2' & HK & T'); auto. exists s2'. split; auto. econstructor; eauto.
    apply IH; auto; [now apply term_at|]. apply la_alike; auto. now apply yield_alike.
Qed.
End Decide.
