(** What becomes of the actions of a state, conflicts or not (C47). *)
From Verif Require Import Base Syntax BaseFacts FrontEnd First States Actions Spec WfGrammar DfsFacts ClosureFacts StatesFacts AutoFacts LalrFacts ActFacts GroupFacts FaultSpec FaultDuel FaultAct.
From Coq Require Import Sorting.Permutation.

Section Fate.
Context (g : grammar).
(** [c] is [b], or what a meeting of [b] with another action made of it *)
Definition turned (Q : action -> action -> Prop) (b c : action) : Prop := a_la b = a_la c /\ (c = b \/ ~ sr (a_det c) /\ Q b c).

Lemma against_turned Q : forall l0 l ap0 ap n ap' l' n', Forall2 (turned Q) l0 l -> turned Q ap0 ap ->
  (forall b, In b l0 -> a_la ap0 = a_la b -> rcy g (a_la b) (a_det ap0) (a_det b) <> a_det b -> Q b (mkAct (a_la b) (rcy g (a_la b) (a_det ap0) (a_det b)))) ->
  (forall b, In b l0 -> a_la ap0 = a_la b -> rcx g (a_la b) (a_det ap0) (a_det b) <> a_det ap0 -> Q ap0 (mkAct (a_la b) (rcx g (a_la b) (a_det ap0) (a_det b)))) ->
  resolve_against g ap l n = (ap', l', n') -> turned Q ap0 ap' /\ Forall2 (turned Q) l0 l'.
Proof.
  induction l0 as [|b0 l0 IH]; intros l ap0 ap n ap' l' n' HF HA HY HX H; inversion HF as [|? b ? l2 HB HF2]; subst; cbn [resolve_against] in H.
  - injection H as <- <- <-. auto.
  - destruct (Nat.eqb_spec (a_la ap) (a_la b)) as [El|Nl].
    2:{ injection H as <- <- <-. auto. }
    destruct (resolve_conflict g (a_la ap) (a_det ap) (a_det b)) as [[dx dy] e] eqn:ER.
    destruct (resolve_against g (mkAct (a_la ap) dx) l2 _) as [[ap2 l3] n2] eqn:E2. injection H as <- <- <-.
    destruct HA as [LA DA], HB as [LB DB].
    assert (Ela : a_la ap0 = a_la b0) by congruence.
    assert (HC : turned Q ap0 (mkAct (a_la ap) dx) /\ turned Q b0 (mkAct (a_la b) dy)).
    { destruct DA as [->|[DA PA]].
      - destruct DB as [->|[DB PB]].
        + destruct (rc_cases g (a_la ap0) (a_det ap0) (a_det b0)) as [CX CY]. pose proof (HX b0 (or_introl eq_refl) Ela) as HX0. pose proof (HY b0 (or_introl eq_refl) Ela) as HY0. rewrite <- Ela in HX0, HY0. unfold rcx, rcy in CX, CY, HX0, HY0. rewrite ER in CX, CY, HX0, HY0. cbn [fst snd] in CX, CY, HX0, HY0. split.
          * split; auto. cbn [a_la a_det]. destruct CX as [->|CX]; [left; now destruct ap0|]. destruct (sr_dec (a_det ap0)) as [Hs|Hs].
            -- right. split; auto. apply HX0. intros E. now rewrite E in CX.
            -- rewrite rc_dead in ER by tauto. injection ER as <- _ _. left. now destruct ap0.
          * split; auto. cbn [a_la a_det]. destruct CY as [->|CY]; [left; now destruct b0|]. destruct (sr_dec (a_det b0)) as [Hs|Hs].
            -- right. split; auto. rewrite <- Ela. apply HY0. intros E. now rewrite E in CY.
            -- rewrite rc_dead in ER by tauto. injection ER as _ <- _. left. now destruct b0.
        + rewrite rc_dead in ER by tauto. injection ER as <- <- <-. split; [split; auto; left; now destruct ap0|split; auto; right; cbn; split; auto; destruct b; exact PB].
      - rewrite rc_dead in ER by tauto. injection ER as <- <- <-. split; [split; auto; right; cbn; split; auto; destruct ap; exact PA|].
        split; auto. cbn [a_la a_det]. destruct DB as [->|DB]; [left; now destruct b0|]. right. destruct b; exact DB. }
    destruct HC as (C1 & C2).
    destruct (IH _ _ _ _ _ _ _ HF2 C1 (fun b Hb => HY b (or_intror Hb)) (fun b Hb => HX b (or_intror Hb)) E2) as (R1 & R2). auto.
Qed.
Lemma all_turned Q : forall l0 l n l' n', Forall2 (turned Q) l0 l ->
  (forall a b, before l0 a b -> a_la a = a_la b -> rcy g (a_la b) (a_det a) (a_det b) <> a_det b -> Q b (mkAct (a_la b) (rcy g (a_la b) (a_det a) (a_det b)))) ->
  (forall a b, before l0 a b -> a_la a = a_la b -> rcx g (a_la b) (a_det a) (a_det b) <> a_det a -> Q a (mkAct (a_la b) (rcx g (a_la b) (a_det a) (a_det b)))) ->
  resolve_all g (List.length l) l n = (l', n') -> Forall2 (turned Q) l0 l'.
Proof.
  induction l0 as [|a0 l0 IH]; intros l n l' n' HF HY HX H; inversion HF as [|? a ? l2 HA HF2]; subst; cbn [resolve_all List.length] in H.
  - injection H as <- <-. auto.
  - destruct (resolve_against g a l2 n) as [[ap1 l1] n1] eqn:E1. destruct (resolve_all g (List.length l2) l1 n1) as [l3 n3] eqn:E3. injection H as <- <-.
    destruct (against_turned Q _ _ _ _ _ _ _ _ HF2 HA (fun b Hb => HY a0 b (before_head a0 l0 b Hb)) (fun b Hb => HX a0 b (before_head a0 l0 b Hb)) E1) as (R1 & R2).
    assert (El : List.length l2 = List.length l1) by (rewrite <- (f2l _ _ _ HF2); now rewrite (f2l _ _ _ R2)). rewrite El in E3.
    constructor; auto. exact (IH _ _ _ _ R2 (fun x b Hb => HY x b (before_cons a0 l0 x b Hb)) (fun x b Hb => HX x b (before_cons a0 l0 x b Hb)) E3).
Qed.
Lemma turned_refl Q l : Forall2 (turned Q) l l.
Proof. induction l; constructor; auto. split; auto. Qed.

(** ** The marks are as many as the conflicts. *)
Definition mark (a : action) : nat := match a_det a with SSConflict _ | SRConflict _ | RRConflict _ => 1 | _ => 0 end.
Fixpoint marks (l : list action) : nat := match l with [] => 0 | a :: l => mark a + marks l end.
Lemma rc_marks la x y dx dy e : resolve_conflict g la x y = (dx, dy, e) -> mark (mkAct la dx) + mark (mkAct la dy) = mark (mkAct la x) + mark (mkAct la y) + (if e then 1 else 0).
Proof.
  unfold resolve_conflict. destruct x, y; intros H; try (injection H as <- <- <-; cbn; lia).
  - destruct (sy_prec (gsym g la)), (r_prec (grule g r)); try (injection H as <- <- <-; cbn; lia). destruct (precedence_cmp _ _); injection H as <- <- <-; cbn; lia.
  - destruct (r_prec (grule g r)), (r_prec (grule g r0)); try (injection H as <- <- <-; cbn; lia). destruct (precedence_cmp _ _); injection H as <- <- <-; cbn; lia.
Qed.
Lemma against_marks : forall l ap n ap' l' n', resolve_against g ap l n = (ap', l', n') -> mark ap' + marks l' + n = mark ap + marks l + n'.
Proof.
  induction l as [|b l IH]; intros ap n ap' l' n' H; cbn [resolve_against] in H; [injection H as <- <- <-; lia|].
  destruct (a_la ap =? a_la b); [|injection H as <- <- <-; lia]. destruct (resolve_conflict g (a_la ap) (a_det ap) (a_det b)) as [[dx dy] e] eqn:ER.
  destruct (resolve_against g (mkAct (a_la ap) dx) l _) as [[ap2 l2] n2] eqn:E2. injection H as <- <- <-. apply IH in E2. apply rc_marks in ER.
  change (mark (mkAct (a_la ap) (a_det ap))) with (mark ap) in ER. change (mark (mkAct (a_la ap) (a_det b))) with (mark b) in ER. change (mark (mkAct (a_la ap) dy)) with (mark (mkAct (a_la b) dy)) in ER. cbn [marks]. destruct e; lia.
Qed.
Lemma all_marks : forall k l n l' n', resolve_all g k l n = (l', n') -> marks l' + n = marks l + n'.
Proof.
  induction k as [|k IH]; intros l n l' n' H; cbn [resolve_all] in H; [injection H as <- <-; lia|]. destruct l as [|a l]; [injection H as <- <-; lia|].
  destruct (resolve_against g a l n) as [[a1 l1] n1] eqn:E1. destruct (resolve_all g k l1 n1) as [l2 n2] eqn:E2. injection H as <- <-. apply IH in E2. apply against_marks in E1. cbn [marks]. lia.
Qed.
Lemma marks_pos l : 0 < marks l <-> exists a, In a l /\ mark a = 1.
Proof.
  induction l as [|a l IH]; cbn [marks].
  - split; [lia|]. intros (a & [] & _).
  - split.
    + intros H. destruct (mark a) as [|k] eqn:E; [apply IH in H as (b & H1 & H2); exists b; split; auto; now right|]. exists a. split; [now left|]. unfold mark in *. destruct (a_det a); lia.
    + intros (b & [<-|Hb] & E); [lia|]. assert (0 < marks l) by (apply IH; eauto). lia.
Qed.

Lemma all_group la : forall k l n l' n', k = List.length l -> la_sorted l -> resolve_all g k l n = (l', n') ->
  fst (resolve_all g (List.length (group la l)) (group la l) 0) = group la l'.
Proof.
  induction k as [|k IH]; intros l n l' n' Hk Hs H; destruct l as [|ap l]; try discriminate; cbn [resolve_all] in H; [now injection H as <- <-|].
  simpl in Hk. injection Hk as Hk. destruct (resolve_against g ap l n) as [[ap1 l1] n1] eqn:E1. destruct (resolve_all g k l1 n1) as [l2 n2] eqn:E2. injection H as <- <-.
  destruct (resolve_against_la _ _ _ _ _ _ _ E1) as [La Lm]. destruct (resolve_against_group g la _ _ _ _ _ _ Hs E1) as [G1 G2].
  assert (Hk1 : k = List.length l1) by (rewrite <- (map_length a_la l1), Lm, map_length; auto).
  assert (Hs1 : la_sorted l1) by (inversion Hs; subst; apply (la_sorted_map l l1); auto).
  specialize (IH l1 n1 l2 n2 Hk1 Hs1 E2). unfold group at 1 2 3. cbn [filter]. fold (group la l) (group la l2). rewrite La.
  destruct (Nat.eqb_spec (a_la ap) la) as [He|Hne].
  - cbn [List.length resolve_all]. destruct (against_shift g _ _ _ 0 _ _ _ (G1 He)) as [_ ->].
    replace (List.length (group la l)) with (List.length (group la l1)).
    2:{ specialize (G1 He). apply resolve_against_la in G1 as [_ G1]. rewrite <- (map_length a_la), G1, map_length. reflexivity. }
    destruct (resolve_all g (List.length (group la l1)) (group la l1) 0) as [l3 n3] eqn:E3. destruct (all_shift g _ _ _ (0 + (n1 - n)) _ _ E3) as [_ ->]. cbn in *. now rewrite IH.
  - rewrite <- (G2 Hne). exact IH.
Qed.
End Fate.

(** ** One state *)
Section State.
Context (g : grammar) (W : wf_grammar g) (p : pst) (A : Aut g p).
Hypothesis OW : forall i u v, some_prec g (i, u) -> some_prec g (i, v) -> u = v.
Context (s : nat) (l0 l' : list action) (n' : nat).
Hypothesis HI : forall la d, In (mkAct la d) l0 <-> raw g p s la d.
Hypothesis HS : sorted_by action_less l0.
Hypothesis HR : forall la r, ~ before l0 (mkAct la (Reduce r)) (mkAct la (Reduce r)).
Hypothesis HSh : forall la t, before l0 (mkAct la (Shift t)) (mkAct la (Shift t)) <-> exists X ms, edge g p s X t /\ kind_at g X = Some (KMulti ms) /\ 2 <= count_occ Nat.eq_dec ms la.
Hypothesis ER : resolve_all g (List.length l0) l0 0 = (l', n').

Definition ties (la r : nat) : Prop := exists i, r_prec (grule g r) = Some (i, ANone) /\ sy_prec (gsym g la) = Some (i, ANone).
Definition fate (la : nat) (d d' : detail) : Prop :=
  d' = d \/
  match d with
  | Shift t => d' = SHResolved t \/ d' = SSConflict t \/ d' = Error /\ exists r, raw g p s la (Reduce r) /\ ties la r
  | Reduce r => d' = RDResolved r \/ d' = SRConflict r \/ d' = RRConflict r
  | _ => False
  end.
Lemma fates : Forall2 (fun b c => a_la b = a_la c /\ fate (a_la b) (a_det b) (a_det c) /\ (kind_at g (a_la b) = Some KNonTerm -> c = b)) l0 l'.
Proof.
  set (Q := fun b c : action => fate (a_la b) (a_det b) (a_det c) /\ exists x, a_la x = a_la b /\ sr (a_det x) /\ sr (a_det b) /\ (before l0 x b \/ before l0 b x)).
  assert (HQ : Forall2 (turned Q) l0 l').
  { apply (all_turned g Q l0 l0 0 l' n'); auto; [apply turned_refl| |].
    - intros [la d] [la' d'] HB E N. cbn [a_la a_det] in *. subst la'. unfold Q. cbn [a_la a_det].
      assert (HD : sr d /\ sr d') by (destruct (sr_dec d), (sr_dec d'); auto; exfalso; apply N; unfold rcy; rewrite rc_dead by tauto; reflexivity). split.
      + right. unfold rcy, resolve_conflict in *. destruct HD as [D1 D2]. destruct d, d'; try contradiction; cbn [fst snd] in *; auto.
        * destruct (sy_prec (gsym g la)), (r_prec (grule g r)); cbn in *; auto. destruct (precedence_cmp _ _); cbn in *; auto; now contradiction N.
        * destruct (r_prec (grule g r)), (r_prec (grule g r0)); cbn in *; auto. destruct (precedence_cmp _ _); cbn in *; auto; now contradiction N.
      + exists (mkAct la d). cbn. tauto.
    - intros [la d] [la' d'] HB E N. cbn [a_la a_det] in *. subst la'. unfold Q. cbn [a_la a_det].
      assert (HD : sr d /\ sr d') by (destruct (sr_dec d), (sr_dec d'); auto; exfalso; apply N; unfold rcx; rewrite rc_dead by tauto; reflexivity). split.
      + right. unfold rcx, resolve_conflict in *. destruct HD as [D1 D2]. destruct d, d'; try contradiction; cbn [fst snd] in *; auto; try (now contradiction N).
        * destruct (sy_prec (gsym g la)) as [[i u]|] eqn:E1; [|now contradiction N]. destruct (r_prec (grule g r)) as [[j v]|] eqn:E2; [|now contradiction N]. cbn in *.
          unfold precedence_cmp in *. cbn in *. destruct (Nat.compare_spec i j) as [->| |]; cbn in *; auto; [|now contradiction N]. destruct u; cbn in *; auto; [now contradiction N|].
          right. right. split; auto. exists r. split; [apply HI; apply before_in in HB; tauto|]. exists j. split; auto. rewrite E2. f_equal. f_equal. apply (OW j); [right|left]; eauto.
        * destruct (r_prec (grule g r)), (r_prec (grule g r0)); cbn in *; try (now contradiction N). destruct (precedence_cmp _ _); cbn in *; auto; now contradiction N.
      + exists (mkAct la d'). cbn. tauto. }
  clear ER. assert (HL : forall b, In b l0 -> In b l0) by auto. revert HL HQ. generalize l' as m. generalize l0 at 1 3 4 as l. induction l as [|b l IH]; intros m HL HQ; inversion HQ as [|? c ? m' HT HQ']; subst; constructor.
  - destruct HT as [E HT]. split; auto. destruct HT as [->|[_ (HF & x & Ex & Sx & Sb & HB)]]; [split; auto; now left|]. split; auto. intros K. exfalso.
    assert (Hb : In b l0) by (apply HL; now left). assert (Hx : In x l0) by (destruct HB as [HB|HB]; apply before_in in HB; tauto). destruct b as [la d], x as [la' d']. cbn in *. subst la'. apply HI in Hb, Hx.
    destruct d as [t| |r| | | | | | |]; try contradiction; [|now apply (reduce_term g W p _ _ _ Hb)]. destruct d' as [t'| |r'| | | | | | |]; try contradiction; [|now apply (reduce_term g W p _ _ _ Hx)].
    pose proof (shift_nonterm g W p _ _ _ Hb K) as EA. pose proof (shift_nonterm g W p _ _ _ Hx K) as EB. rewrite (au_fun g p A _ _ _ _ EA EB) in *.
    assert (HB' : before l0 (mkAct la (Shift t')) (mkAct la (Shift t'))) by tauto. apply HSh in HB' as (X & ms & EX & KX & _). rewrite (edge_same g p A _ _ _ _ EB EX) in K. congruence.
  - apply IH; auto. intros; apply HL; now right.
Qed.
Lemma fate_of la d : raw g p s la d -> exists d', In (mkAct la d') l' /\ fate la d d' /\ (kind_at g la = Some KNonTerm -> d' = d).
Proof.
  intros H. apply HI in H. destruct (forall2_in_l _ _ _ _ fates H) as ([la' d'] & H1 & E & HF & HK). cbn in *. subst la'. exists d'. splits; auto. intros K. specialize (HK K). congruence.
Qed.
Lemma fate_from la d' : In (mkAct la d') l' -> exists d, raw g p s la d /\ fate la d d' /\ (kind_at g la = Some KNonTerm -> d' = d).
Proof.
  intros H. destruct (forall2_in_r _ _ _ _ fates H) as ([la' d] & H1 & E & HF & HK). cbn in *. subst la'. exists d. splits; auto; [now apply HI|]. intros K. specialize (HK K). congruence.
Qed.

Lemma marked gamma la : path g p gamma s -> kind_at g la <> Some KNonTerm -> (exists d, In (mkAct la d) l' /\ mark (mkAct la d) = 1) <-> conflict_at g gamma la.
Proof.
  intros Hg K. rewrite <- (group_conflict g W p A OW s l0 HI HS HR HSh gamma la Hg K).
  unfold lost_count. pose proof (all_group g la _ _ _ _ _ eq_refl (sorted_la_sorted _ HS) ER) as EG. destruct (resolve_all g (List.length (group la l0)) (group la l0) 0) as [l2 n2] eqn:E2. cbn in *. subst l2.
  apply all_marks in E2. assert (M0 : marks (group la l0) = 0).
  { destruct (Nat.eq_dec (marks (group la l0)) 0) as [|N]; auto. assert (HM : 0 < marks (group la l0)) by lia. apply marks_pos in HM as ([x d] & Hx & HM). apply group_in in Hx as [Hx _]. apply HI in Hx. inversion Hx; subst; discriminate. }
  rewrite M0 in E2. assert (En : n2 = marks (group la l')) by lia. rewrite En, marks_pos. split.
  - intros (d & H1 & H2). exists (mkAct la d). split; auto. apply group_in. auto.
  - intros ([x d] & H1 & H2). apply group_in in H1 as [H1 E]. cbn in E. subst x. eauto.
Qed.

(** Without a conflict one action remains. *)
Lemma winner gamma la d : path g p gamma s -> kind_at g la <> Some KNonTerm -> ~ conflict_at g gamma la -> raw g p s la d -> exists c, raw g p s la c /\ sr c /\ In (mkAct la c) l' /\
  (forall x, raw g p s la x -> x = c \/ beats g la c x) /\ (forall x, In (mkAct la x) l' -> sr x -> x = c).
Proof.
  intros Hg K NC Hd. assert (Ns : la <> g_start g) by (intros ->; apply K, (wg_start g W)). pose proof (group_conflict g W p A OW s l0 HI HS HR HSh gamma la Hg K) as GC.
  assert (L0 : lost_count g (group la l0) = 0) by (destruct (Nat.eq_dec (lost_count g (group la l0)) 0); auto; exfalso; apply NC, GC; lia).
  destruct (group_facts g p s l0 HI HS HR la Ns) as (F1 & F2 & F3). pose proof (all_group g la _ _ _ _ _ eq_refl (sorted_la_sorted _ HS) ER) as EG.
  pose proof (group_raw g p s l0 HI la) as GR. destruct (group la l0) as [|c l] eqn:E; [apply GR in Hd; contradiction|].
  pose proof (Forall_inv F3) as [Lc Sc]. pose proof (Forall_inv_tail F3) as Fl. cbn [dets map] in F1, F2, GR. fold (dets l) in F1, F2, GR. pose proof (upl_ordl _ F1 F2) as FO.
  unfold lost_count in L0. cbn [List.length] in L0, EG. destruct (resolve_all g (S (List.length l)) (c :: l) 0) as [l2 n2] eqn:E2. cbn [fst snd] in L0, EG. subst l2 n2.
  replace c with (mkAct la (a_det c)) in E2 by (rewrite <- Lc; now destruct c). destruct (all_duel g la _ (a_det c) l 0 _ _ (le_n _) Sc Fl FO E2) as (R1 & R2 & R3).
  destruct (champ_run g la (dprec_word g OW la) (dets l) [a_det c] (a_det c)) as [[HC1 HC2] _]; auto; [split; [now left|]; intros x [->|[]]; auto|].
  exists (fst (duels g la (a_det c) (dets l))). cbn [app] in HC1, HC2. splits.
  - now apply GR.
  - now apply F1.
  - now apply group_in in R2.
  - intros x Hx. apply HC2. now apply GR.
  - intros x Hx Sx. apply (R3 (mkAct la x)); auto. apply group_in. auto.
Qed.
End State.
