(** [find_links] and [find_follow_sets]: the follow sets are the least solution of
    the propagation links. *)
From Verif Require Import Base Syntax BaseFacts FrontEnd First States Spec WfGrammar FirstFacts
  ClosureFacts StatesFacts DfsFacts.

(** ** [find_links] *)
Lemma add_fplp_all c l : forall cs,
  let cs' := fold_left (fun cs b => upd cs b (cfg_add_fplp c)) l cs in
  List.length cs' = List.length cs /\
  (forall i, ckey cs' i = ckey cs i /\ c_fws (cfg cs' i) = c_fws (cfg cs i) /\
     c_bplp (cfg cs' i) = c_bplp (cfg cs i)) /\
  (forall i q, In q (c_fplp (cfg cs' i)) <->
     In q (c_fplp (cfg cs i)) \/ (q = c /\ In i l /\ i < List.length cs)).
Proof.
  induction l as [|b l IH]; intros cs; cbn [fold_left].
  - splits; auto. intros i q. simpl. tauto.
  - destruct (IH (upd cs b (cfg_add_fplp c))) as (H1 & H2 & H3). cbv zeta.
    set (cs' := fold_left _ l _) in *. rewrite upd_length in *. splits; auto.
    + intros i. destruct (H2 i) as (E1 & E2 & E3). rewrite E1, E2, E3. unfold ckey.
      rewrite cfg_upd. destruct (_ && _); auto.
    + intros i q. rewrite (H3 i q), cfg_upd. simpl In at 4.
      destruct (Nat.eqb_spec b i) as [->|Hn]; simpl.
      * destruct (Nat.ltb_spec i (List.length cs)) as [Hl|Hl]; simpl; [rewrite in_app_iff; simpl|];
          split; intuition (subst; auto; try lia).
      * split; intuition (subst; auto).
Qed.

Lemma find_links_spec p :
  let p' := find_links p in
  p_states p' = p_states p /\ List.length (p_cfgs p') = List.length (p_cfgs p) /\
  (forall i, ckey (p_cfgs p') i = ckey (p_cfgs p) i /\
     c_fws (cfg (p_cfgs p') i) = c_fws (cfg (p_cfgs p) i) /\
     c_bplp (cfg (p_cfgs p') i) = c_bplp (cfg (p_cfgs p) i)) /\
  (forall i q, In q (c_fplp (cfg (p_cfgs p') i)) <->
     In q (c_fplp (cfg (p_cfgs p) i)) \/
     (In q (all_configs p) /\ In i (c_bplp (cfg (p_cfgs p) q)) /\ i < List.length (p_cfgs p))).
Proof.
  unfold find_links. cbn [p_cfgs p_states]. split; auto.
  generalize (all_configs p) as l. generalize (p_cfgs p) as cs. clear p. intros cs l. revert cs.
  induction l as [|c l IH]; intros cs; cbn [fold_left].
  - splits; auto. intros i q. simpl. tauto.
  - set (cs1 := fold_left (fun cs b => upd cs b (cfg_add_fplp c)) (c_bplp (cfg cs c)) cs).
    destruct (add_fplp_all c (c_bplp (cfg cs c)) cs) as (A1 & A2 & A3). fold cs1 in A1, A2, A3.
    destruct (IH cs1) as (H1 & H2 & H3). splits.
    + congruence.
    + intros i. destruct (H2 i) as (E1 & E2 & E3), (A2 i) as (E4 & E5 & E6). rewrite E1, E2, E3. auto.
    + intros i q. rewrite (H3 i q), (A3 i q). destruct (A2 q) as (_ & _ & ->). rewrite A1. simpl In at 6.
      split; intuition (subst; auto).
Qed.

(** ** [find_follow_sets] *)
Record fsame (cs cs' : list config) : Prop := {
  fs_len : List.length cs' = List.length cs;
  fs_key : forall i, ckey cs' i = ckey cs i;
  fs_fplp : forall i, c_fplp (cfg cs' i) = c_fplp (cfg cs i);
  fs_bplp : forall i, c_bplp (cfg cs' i) = c_bplp (cfg cs i);
  fs_fws : forall i, incl (c_fws (cfg cs i)) (c_fws (cfg cs' i)) }.

Lemma fsame_refl cs : fsame cs cs.
Proof. constructor; auto using incl_refl. Qed.
Lemma fsame_trans a b c : fsame a b -> fsame b c -> fsame a c.
Proof.
  intros [A1 A2 A3 A4 A5] [B1 B2 B3 B4 B5].
  constructor; [congruence|intros i; rewrite B2; auto|intros i; rewrite B3; auto|intros i; rewrite B4; auto|].
  intros i. eapply incl_tran; eauto.
Qed.

Definition prop_one (w : list nat) := fun '(cs, progress) q =>
  let old := c_fws (cfg cs q) in
  let new := sunion old w in
  if List.length old <? List.length new
  then (upd cs q (fun x => cfg_set_complete false (cfg_set_fws new x)), true)
  else (upd cs q (cfg_set_fws new), progress : bool).

Lemma prop_fold w : forall qs cs pr cs' pr',
  (forall q, In q qs -> q < List.length cs) ->
  fold_left (prop_one w) qs (cs, pr) = (cs', pr') ->
  fsame cs cs' /\
  (forall i b, In b (c_fws (cfg cs' i)) -> In b (c_fws (cfg cs i)) \/ (In i qs /\ In b w)) /\
  (forall q, In q qs -> incl w (c_fws (cfg cs' q))) /\
  (forall i, c_complete (cfg cs' i) = true ->
     c_complete (cfg cs i) = true /\ incl (c_fws (cfg cs' i)) (c_fws (cfg cs i))) /\
  (pr' = false -> pr = false /\ (forall i, c_complete (cfg cs' i) = c_complete (cfg cs i))).
Proof.
  induction qs as [|q qs IH]; intros cs pr cs' pr' Hr H; cbn [fold_left] in H.
  - inversion H; subst. splits; auto using fsame_refl, incl_refl. contradiction.
  - destruct (prop_one w (cs, pr) q) as [cs1 pr1] eqn:E1.
    assert (Hq : q < List.length cs) by (apply Hr; now left).
    unfold prop_one in E1. cbv zeta in E1.
    set (new := sunion (c_fws (cfg cs q)) w) in *.
    assert (S1 : List.length cs1 = List.length cs /\
      (forall i, i <> q -> cfg cs1 i = cfg cs i) /\ ckey cs1 q = ckey cs q /\
      c_fplp (cfg cs1 q) = c_fplp (cfg cs q) /\ c_bplp (cfg cs1 q) = c_bplp (cfg cs q) /\
      c_fws (cfg cs1 q) = new /\
      ((List.length (c_fws (cfg cs q)) < List.length new /\ c_complete (cfg cs1 q) = false /\ pr1 = true) \/
       (new = c_fws (cfg cs q) /\ c_complete (cfg cs1 q) = c_complete (cfg cs q) /\ pr1 = pr))).
    { destruct (Nat.ltb_spec (List.length (c_fws (cfg cs q))) (List.length new)) as [Hl|Hl];
        inversion E1; subst; unfold ckey; rewrite upd_length, cfg_upd_same by auto; simpl; splits; auto.
      - intros i Hi. apply cfg_upd_other. auto.
      - intros i Hi. apply cfg_upd_other. auto.
      - right. splits; auto. apply sunion_same_eq. pose proof (sunion_length (c_fws (cfg cs q)) w). unfold new in *. lia. }
    destruct S1 as (L1 & O1 & K1 & P1 & B1 & F1 & C1).
    assert (Fs1 : fsame cs cs1).
    { constructor; auto; intros i; (destruct (Nat.eq_dec i q) as [->|Hn]; [auto|unfold ckey; rewrite O1 by auto; auto using incl_refl]).
      rewrite F1. intros b Hb. apply sunion_in. now left. }
    apply IH in H as (A1 & A2 & A3 & A4 & A5).
    2:{ intros x Hx. rewrite L1. apply Hr. now right. }
    splits.
    + eapply fsame_trans; eauto.
    + intros i b Hb. apply A2 in Hb as [Hb|[Hi Hb]]; [|right; split; auto; now right].
      destruct (Nat.eq_dec i q) as [->|Hn].
      * rewrite F1 in Hb. apply sunion_in in Hb as [Hb|Hb]; auto. right. split; auto. now left.
      * rewrite O1 in Hb by auto. auto.
    + intros x [<-|Hx]; auto. intros b Hb. apply (fs_fws _ _ A1). rewrite F1. apply sunion_in. now right.
    + intros i Hi. apply A4 in Hi as [Hi1 Hi2]. destruct (Nat.eq_dec i q) as [->|Hn].
      * destruct C1 as [(_ & C1 & _)|(C1 & C2 & _)]; [congruence|]. rewrite F1, C1 in Hi2. split; [congruence|auto].
      * rewrite O1 in * by auto. auto.
    + intros Hp. apply A5 in Hp as [Hp A6]. destruct C1 as [(_ & _ & C1)|(_ & C2 & C3)]; [congruence|].
      split; [congruence|]. intros i. rewrite A6. destruct (Nat.eq_dec i q) as [->|Hn]; auto. now rewrite O1.
Qed.

Section Follow.
Context (A : nat -> Prop).

Definition linked_ok (cs : list config) : Prop :=
  forall c q, A c -> c_complete (cfg cs c) = true -> In q (c_fplp (cfg cs c)) ->
    incl (c_fws (cfg cs c)) (c_fws (cfg cs q)).

Record fpre (P : nat -> nat -> Prop) (cs : list config) : Prop := {
  fp_range : forall i, A i -> i < List.length cs;
  fp_closed : forall i q, A i -> In q (c_fplp (cfg cs i)) -> A q;
  fp_link : forall i q b, A i -> In q (c_fplp (cfg cs i)) -> P i b -> P q b;
  fp_fws : forall i b, A i -> In b (c_fws (cfg cs i)) -> P i b;
  fp_ok : linked_ok cs }.

Lemma fpre_same P cs cs' : fpre P cs -> fsame cs cs' ->
  (forall i b, A i -> In b (c_fws (cfg cs' i)) -> P i b) -> linked_ok cs' -> fpre P cs'.
Proof.
  intros [P1 P2 P3 P4 P5] S H1 H2. constructor; auto.
  - intros i. rewrite (fs_len _ _ S). auto.
  - intros i q. rewrite (fs_fplp _ _ S). eauto.
  - intros i q b. rewrite (fs_fplp _ _ S). eauto.
Qed.

Lemma follow_step_spec P cs pr c cs' pr' :
  fpre P cs -> A c ->
  follow_step (cs, pr) c = (cs', pr') ->
  fsame cs cs' /\ fpre P cs' /\
  (pr' = false -> pr = false /\ forall i, i < List.length cs ->
     (c_complete (cfg cs i) = true \/ i = c) -> c_complete (cfg cs' i) = true).
Proof.
  intros HPre Hc H. pose proof HPre as [Hr Hcl HP HW HL]. unfold follow_step in H.
  destruct (c_complete (cfg cs c)) eqn:Ec.
  { inversion H; subst. splits; auto using fsame_refl. intros ->. split; auto. intros i Hi [?| ->]; auto. }
  change (fold_left _ (c_fplp (cfg cs c)) (cs, pr)) with
    (fold_left (prop_one (c_fws (cfg cs c))) (c_fplp (cfg cs c)) (cs, pr)) in H.
  destruct (fold_left _ _ _) as [cs1 pr1] eqn:Ef. inversion H; subst cs' pr'. clear H.
  apply prop_fold in Ef as (A1 & A2 & A3 & A4 & A5); [|eauto].
  set (cs2 := upd cs1 c (cfg_set_complete true)).
  assert (E2 : forall i, cfg cs2 i = if (c =? i) && (i <? List.length cs1) then cfg_set_complete true (cfg cs1 i) else cfg cs1 i)
    by (intros; apply cfg_upd).
  assert (F2 : forall i, c_fws (cfg cs2 i) = c_fws (cfg cs1 i)) by (intros i; rewrite E2; destruct (_ && _); auto).
  assert (P2 : forall i, c_fplp (cfg cs2 i) = c_fplp (cfg cs1 i)) by (intros i; rewrite E2; destruct (_ && _); auto).
  assert (Fs2 : fsame cs1 cs2).
  { constructor; auto.
    - apply upd_length.
    - intros i. unfold ckey. rewrite E2. destruct (_ && _); auto.
    - intros i. rewrite E2. destruct (_ && _); auto.
    - intros i. rewrite F2. apply incl_refl. }
  assert (Fs : fsame cs cs2) by (eapply fsame_trans; eauto).
  splits; auto.
  - eapply fpre_same; eauto.
    + intros i b Hi. rewrite F2. intros Hb. apply A2 in Hb as [Hb|[Hq Hb]]; auto. apply (HP c i b); auto.
    + intros i q Ai. rewrite P2, !F2. rewrite (fs_fplp _ _ A1). intros Hi Hq.
      destruct (Nat.eq_dec i c) as [->|Hn].
      * intros b Hb. apply A2 in Hb as [Hb|[_ Hb]]; apply (A3 q Hq); auto.
      * rewrite E2 in Hi. destruct (Nat.eqb_spec c i) as [He|_]; [congruence|]. simpl in Hi.
        apply A4 in Hi as [Hi1 Hi2]. eapply incl_tran; [exact Hi2|].
        eapply incl_tran; [apply (HL i q); auto|apply (fs_fws _ _ A1)].
  - intros Hp. apply A5 in Hp as [Hp A6]. split; auto. intros i Hi Hc'. rewrite E2.
    destruct (Nat.eqb_spec c i) as [->|Hn]; simpl.
    + rewrite (fs_len _ _ A1), (proj2 (Nat.ltb_lt _ _) Hi). reflexivity.
    + rewrite A6. destruct Hc'; congruence.
Qed.

Lemma follow_pass_spec P : forall l cs pr cs' pr',
  fpre P cs -> (forall c, In c l -> A c) ->
  fold_left follow_step l (cs, pr) = (cs', pr') ->
  fsame cs cs' /\ fpre P cs' /\
  (pr' = false -> pr = false /\ forall i, i < List.length cs ->
     (c_complete (cfg cs i) = true \/ In i l) -> c_complete (cfg cs' i) = true).
Proof.
  induction l as [|c l IH]; intros cs pr cs' pr' HP HA H; cbn [fold_left] in H.
  - inversion H; subst. splits; auto using fsame_refl. intros ->. split; auto. intros i Hi [?|[]]; auto.
  - destruct (follow_step (cs, pr) c) as [cs1 pr1] eqn:E1.
    apply (follow_step_spec P) in E1 as (A1 & A2 & A4); auto; [|apply HA; now left].
    apply IH in H as (B1 & B2 & B4); auto; [|intros; apply HA; now right].
    splits; auto.
    + eapply fsame_trans; eauto.
    + intros Hp. apply B4 in Hp as [Hp B5]. apply A4 in Hp as [Hp A5]. split; auto.
      intros i Hi Hc. apply B5; [rewrite (fs_len _ _ A1); auto|].
      destruct Hc as [Hc|[->|Hc]]; auto.
Qed.

Lemma follow_loop_spec P all : forall fuel cs cs',
  fpre P cs -> (forall c, In c all <-> A c) ->
  follow_loop fuel all cs = GOk cs' ->
  fsame cs cs' /\ (forall i b, A i -> In b (c_fws (cfg cs' i)) -> P i b) /\
  (forall c q, A c -> In q (c_fplp (cfg cs c)) ->
     incl (c_fws (cfg cs' c)) (c_fws (cfg cs' q))).
Proof.
  induction fuel as [|n IH]; intros cs cs' HP HA H; [discriminate|]. cbn [follow_loop] in H.
  destruct (fold_left follow_step all (cs, false)) as [cs1 pr] eqn:E1.
  apply (follow_pass_spec P) in E1 as (A1 & A2 & A4); auto; [|intros; now apply HA].
  destruct pr.
  - apply IH in H as (B1 & B2 & B3); auto.
    splits; auto; [eapply fsame_trans; eauto|]. intros c q Hc Hq. apply B3; auto.
    rewrite (fs_fplp _ _ A1). auto.
  - inversion H; subst cs'. splits; auto; [apply A2|]. intros c q Hc Hq. destruct (A4 eq_refl) as [_ A5].
    apply (fp_ok _ _ A2); auto.
    + apply A5; [now apply (fp_range _ _ HP)|right; now apply HA].
    + rewrite (fs_fplp _ _ A1). auto.
Qed.
End Follow.

(** Lookaheads propagated along the links. *)
Inductive la (p : pst) : nat -> nat -> Prop :=
| la_base c b : In c (all_configs p) -> In b (c_fws (cfg (p_cfgs p) c)) -> la p c b
| la_link c q b : la p c b -> In q (c_fplp (cfg (p_cfgs p) c)) -> la p q b.

Theorem find_follow_sets_spec fuel p p' :
  (forall i, In i (all_configs p) -> i < List.length (p_cfgs p)) ->
  (forall i q, In i (all_configs p) -> In q (c_fplp (cfg (p_cfgs p) i)) -> In q (all_configs p)) ->
  find_follow_sets fuel p = GOk p' ->
  p_states p' = p_states p /\ List.length (p_cfgs p') = List.length (p_cfgs p) /\
  (forall i, ckey (p_cfgs p') i = ckey (p_cfgs p) i) /\
  (forall i, In i (all_configs p) -> forall b, In b (c_fws (cfg (p_cfgs p') i)) <-> la p i b).
Proof.
  intros Hr Hf H. unfold find_follow_sets in H.
  destruct (follow_loop _ _ _) as [cs| | |] eqn:E; try discriminate. cbn [gbind] in H. inversion H; subst p'. clear H.
  cbn [p_cfgs p_states].
  destruct (reset_status_spec (all_configs p) (p_cfgs p)) as [RL RS].
  set (cs0 := reset_status (p_cfgs p) (all_configs p)) in *.
  assert (Rfp : forall i, c_fplp (cfg cs0 i) = c_fplp (cfg (p_cfgs p) i)) by (intros; apply RS).
  assert (Rfw : forall i, c_fws (cfg cs0 i) = c_fws (cfg (p_cfgs p) i)) by (intros; apply RS).
  apply (follow_loop_spec (fun i => In i (all_configs p)) (la p)) in E as (A1 & A2 & A3).
  - splits; auto.
    + rewrite (fs_len _ _ A1). auto.
    + intros i. rewrite (fs_key _ _ A1). apply RS.
    + intros i Hi b. split; [apply A2; auto|]. intros Hla.
      enough (In i (all_configs p) /\ In b (c_fws (cfg cs i))) by tauto.
      clear -Hf A1 A3 Rfp Rfw Hla. induction Hla as [c b Hc Hb|c q b Hla [IH1 IH2] Hq].
      * split; auto. apply (fs_fws _ _ A1). now rewrite Rfw.
      * split; [eauto|]. apply (A3 c q); auto. now rewrite Rfp.
  - constructor.
    + intros i Hi. rewrite RL. auto.
    + intros i q. rewrite Rfp. eauto.
    + intros i q b Hi. rewrite Rfp. intros Hq Hl. eapply la_link; eauto.
    + intros i b Hi. rewrite Rfw. now apply la_base.
    + intros c q Hc Ht. destruct (RS c) as (_ & _ & _ & _ & R5 & _). rewrite R5 in Ht by auto. discriminate.
  - tauto.
Qed.
