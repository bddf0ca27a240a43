(** Behind every error of the macro is a fault of the grammar (C38): conflicts and rules that are
    never reduced. *)
From Verif Require Import Base Syntax BaseFacts FrontEnd First States Actions Spec WfGrammar DfsFacts ClosureFacts StatesFacts AutoFacts LalrFacts ActFacts GroupFacts FaultSpec FaultDuel.
From Coq Require Import Sorting.Permutation.

Definition before {A} (l : list A) (a b : A) : Prop := exists u v w, l = u ++ a :: v ++ b :: w.
Lemma before_cons {A} (x : A) l a b : before l a b -> before (x :: l) a b.
Proof. intros (u & v & w & ->). now exists (x :: u), v, w. Qed.
Lemma before_head {A} (x : A) l b : In b l -> before (x :: l) x b.
Proof. intros H. apply in_split in H as (v & w & ->). now exists [], v, w. Qed.
Lemma before_in {A} (l : list A) a b : before l a b -> In a l /\ In b l.
Proof. intros (u & v & w & ->). split; apply in_app_iff; right; [now left|]. right. apply in_app_iff. right. now left. Qed.

Lemma sr_dec d : sr d \/ ~ sr d. Proof. destruct d; cbn; auto. Qed.
Lemma f2l {S T} (P : S -> T -> Prop) l m : Forall2 P l m -> List.length l = List.length m.
Proof. induction 1; cbn; auto. Qed.

Section Res.
Context (g : grammar).
Definition rcx (la : nat) (x y : detail) : detail := fst (fst (resolve_conflict g la x y)).
Definition rcy (la : nat) (x y : detail) : detail := snd (fst (resolve_conflict g la x y)).
Definition clash (la : nat) (x y : detail) : Prop := snd (resolve_conflict g la x y) = true.

Lemma rc_cases la x y : (rcx la x y = x \/ ~ sr (rcx la x y)) /\ (rcy la x y = y \/ ~ sr (rcy la x y)).
Proof.
  unfold rcx, rcy, resolve_conflict. destruct x, y; cbn; auto.
  - destruct (sy_prec (gsym g la)) as [a|], (r_prec (grule g r)) as [b|]; cbn; auto. destruct (precedence_cmp a b); cbn; auto.
  - destruct (r_prec (grule g r)) as [a|], (r_prec (grule g r0)) as [b|]; cbn; auto. destruct (precedence_cmp a b); cbn; auto.
Qed.
Lemma rc_dead la x y : ~ (sr x /\ sr y) -> resolve_conflict g la x y = (x, y, false).
Proof. destruct x, y; cbn; tauto. Qed.

(** [c] is what became of [b] *)
Definition became (P : action -> Prop) (b c : action) : Prop := a_la b = a_la c /\ (c = b \/ ~ sr (a_det c) /\ P b).

Lemma against_hist P : forall l0 l ap0 ap n ap' l' n', Forall2 (became P) l0 l -> became P ap0 ap ->
  (forall b, In b l0 -> a_la ap0 = a_la b -> rcy (a_la b) (a_det ap0) (a_det b) <> a_det b -> P b) ->
  (forall b, In b l0 -> a_la ap0 = a_la b -> rcx (a_la b) (a_det ap0) (a_det b) <> a_det ap0 -> P ap0) ->
  resolve_against g ap l n = (ap', l', n') ->
  became P ap0 ap' /\ Forall2 (became P) l0 l' /\ (n < n' -> exists b, In b l0 /\ a_la ap0 = a_la b /\ clash (a_la b) (a_det ap0) (a_det b)).
Proof.
  induction l0 as [|b0 l0 IH]; intros l ap0 ap n ap' l' n' HF HA HY HX H; inversion HF as [|? b ? l2 HB HF2]; subst; cbn [resolve_against] in H.
  - injection H as <- <- <-. splits; auto. lia.
  - destruct (Nat.eqb_spec (a_la ap) (a_la b)) as [El|Nl].
    2:{ injection H as <- <- <-. splits; auto. lia. }
    destruct (resolve_conflict g (a_la ap) (a_det ap) (a_det b)) as [[dx dy] e] eqn:ER.
    destruct (resolve_against g (mkAct (a_la ap) dx) l2 _) as [[ap2 l3] n2] eqn:E2. injection H as <- <- <-.
    destruct HA as [LA DA], HB as [LB DB].
    assert (Ela : a_la ap0 = a_la b0) by congruence.
    assert (HC : became P ap0 (mkAct (a_la ap) dx) /\ became P b0 (mkAct (a_la b) dy) /\ (e = true -> clash (a_la b0) (a_det ap0) (a_det b0))).
    { destruct DA as [->|[DA PA]].
      - destruct DB as [->|[DB PB]].
        + destruct (rc_cases (a_la ap0) (a_det ap0) (a_det b0)) as [CX CY]. unfold rcx, rcy in CX, CY. rewrite ER in CX, CY. cbn in CX, CY. splits.
          * split; auto. cbn. destruct CX as [->|CX]; [left; now destruct ap0|]. destruct (sr_dec (a_det ap0)) as [Hs|Hs].
            -- right. split; auto. apply (HX b0); [now left|auto|]. unfold rcx. rewrite <- Ela, ER. cbn. intros E. now rewrite E in CX.
            -- rewrite rc_dead in ER by tauto. injection ER as <- _ _. left. now destruct ap0.
          * split; auto. cbn. destruct CY as [->|CY]; [left; now destruct b0|]. destruct (sr_dec (a_det b0)) as [Hs|Hs].
            -- right. split; auto. apply HY; [now left|auto|]. unfold rcy. rewrite <- Ela, ER. cbn. intros E. now rewrite E in CY.
            -- rewrite rc_dead in ER by tauto. injection ER as _ <- _. left. now destruct b0.
          * intros ->. unfold clash. now rewrite <- Ela, ER.
        + rewrite rc_dead in ER by tauto. injection ER as <- <- <-. splits; [split; auto; left; now destruct ap0|split; auto; right; cbn; auto|discriminate].
      - rewrite rc_dead in ER by tauto. injection ER as <- <- <-. splits; [split; auto; right; cbn; auto| |discriminate].
        split; auto. cbn. destruct DB as [->|DB]; auto. left. now destruct b0. }
    destruct HC as (C1 & C2 & C3).
    destruct (IH _ _ _ _ _ _ _ HF2 C1 (fun b Hb => HY b (or_intror Hb)) (fun b Hb => HX b (or_intror Hb)) E2) as (R1 & R2 & R3). splits; auto.
    intros Hn. destruct e; [exists b0; splits; auto; now left|]. destruct (R3 Hn) as (c & Hc & R). exists c. split; auto. now right.
Qed.

Lemma all_hist P : forall l0 l n l' n', Forall2 (became P) l0 l ->
  (forall a b, before l0 a b -> a_la a = a_la b -> rcy (a_la b) (a_det a) (a_det b) <> a_det b -> P b) ->
  (forall a b, before l0 a b -> a_la a = a_la b -> rcx (a_la b) (a_det a) (a_det b) <> a_det a -> P a) ->
  resolve_all g (List.length l) l n = (l', n') ->
  Forall2 (became P) l0 l' /\ (n < n' -> exists a b, before l0 a b /\ a_la a = a_la b /\ clash (a_la b) (a_det a) (a_det b)).
Proof.
  induction l0 as [|a0 l0 IH]; intros l n l' n' HF HY HX H; inversion HF as [|? a ? l2 HA HF2]; subst; cbn [resolve_all List.length] in H.
  - injection H as <- <-. split; auto. lia.
  - destruct (resolve_against g a l2 n) as [[ap1 l1] n1] eqn:E1. destruct (resolve_all g (List.length l2) l1 n1) as [l3 n3] eqn:E3. injection H as <- <-.
    destruct (against_hist P _ _ _ _ _ _ _ _ HF2 HA (fun b Hb => HY a0 b (before_head a0 l0 b Hb)) (fun b Hb => HX a0 b (before_head a0 l0 b Hb)) E1) as (R1 & R2 & R3).
    assert (El : List.length l2 = List.length l1) by (rewrite <- (f2l _ _ _ HF2); now rewrite (f2l _ _ _ R2)). rewrite El in E3.
    destruct (IH _ _ _ _ R2 (fun x b Hb => HY x b (before_cons a0 l0 x b Hb)) (fun x b Hb => HX x b (before_cons a0 l0 x b Hb)) E3) as (Q1 & Q2).
    split; [now constructor|]. intros Hn. destruct (Nat.lt_ge_cases n n1) as [L|L].
    + destruct (R3 L) as (b & Hb & Hc). exists a0, b. split; auto. now apply before_head.
    + destruct Q2 as (x & b & Hb & Hc); [lia|]. exists x, b. split; auto. now apply before_cons.
Qed.
End Res.

(** ** The actions of a state *)
Section Back.
Context (g : grammar) (W : wf_grammar g) (p : pst) (A : Aut g p).
Notation raw := (raw g p).

Lemma path_alike gamma gamma' s : path g p gamma s -> reaches g p gamma' s -> alike g gamma gamma'.
Proof. intros H1 H2 r d. rewrite (H2 r d). split; intros H; [eapply lr0_item; eauto|apply (item_lr0 g p A gamma s (r, d)); auto]. Qed.

Lemma term_covers X m : X < List.length (g_syms g) -> kind_at g m <> Some KNonTerm -> covers g X m -> member g m X.
Proof.
  intros HX Hm C. unfold covers in C. destruct (kind_at g X) as [[| |ms]|] eqn:K; subst.
  - left. auto.
  - contradiction.
  - right. eauto.
  - unfold kind_at in K. destruct (nth_error (g_syms g) X) eqn:E; [discriminate|]. apply nth_error_None in E. lia.
Qed.
Lemma raw_offers gamma s a d : path g p gamma s -> kind_at g a <> Some KNonTerm -> raw s a d -> sr d ->
  match d with Shift t => exists X, edge g p s X t /\ covers g X a /\ offers g gamma a (MShift X) | Reduce r => offers g gamma a (MReduce r) | _ => False end.
Proof.
  intros Hp Ha R Hd. destruct R as [X t m E C|r b HL Hb|]; [| |contradiction].
  - exists X. splits; auto. destruct (au_edge g p A _ _ _ E) as (_ & k & Hi & HX). destruct (nth_kpost g k X) as (ru & al & R1 & R2 & _); auto; [eapply (au_valid g p A); eauto|].
    eapply of_shift; eauto; [eapply (item_lr0 g p A); eauto|]. apply term_covers; auto. now apply (edge_sym g W p A _ _ _ E).
  - apply (lalr_exact g p A) in HL; [|eapply path_range; eauto]. destruct HL as (gamma' & HR & HL).
    assert (Hr : exists ru, nth_error (g_rules g) r = Some ru).
    { pose proof (lr1_lr0 g _ _ _ _ HL) as H0. apply HR in H0. apply (au_valid g p A) in H0 as [H0 _]. cbn in H0. destruct (nth_error (g_rules g) r) eqn:E; eauto. apply nth_error_None in E. lia. }
    destruct Hr as [ru Hr]. eapply (of_reduce g gamma b gamma' r ru); eauto; [eapply path_alike; eauto|]. unfold rlen in HL. unfold grule in HL. now rewrite (nth_error_nth _ _ _ Hr) in HL.
Qed.

Lemma reduce_raw gamma a r : offers g gamma a (MReduce r) -> exists s, s < List.length (p_states p) /\ path g p gamma s /\ raw s a (Reduce r).
Proof.
  intros H. inversion H as [|gamma' r' ru HA Hr HL La]; subst. pose proof (lr1_lr0 g _ _ _ _ HL) as H0. pose proof H0 as H1. apply HA in H1. destruct (lr0_viable g p A _ _ _ H1) as [s Hp]. pose proof (path_range g p A _ _ Hp) as Ls.
  exists s. splits; auto. constructor; auto. apply (lalr_exact g p A); auto. exists gamma'. split; [|unfold rlen, grule; now rewrite (nth_error_nth _ _ _ Hr)].
  intros q d. rewrite <- (HA q d). split; intros HX; [eapply lr0_item; eauto|apply (item_lr0 g p A gamma s (q, d)); auto].
Qed.

Definition is_shift_to (la t : nat) (a : action) : bool := (a_la a =? la) && match a_det a with Shift t' => t' =? t | _ => false end.
Lemma filter_before {T} (f : T -> bool) l a b : before l a b -> f a = true -> f b = true -> before (filter f l) a b.
Proof. intros (u & v & w & ->) Ha Hb. rewrite filter_app. cbn. rewrite Ha, filter_app. cbn. rewrite Hb. now exists (filter f u), (filter f v), (filter f w). Qed.
Lemma before_two {T} (l : list T) a b : before l a b -> 2 <= List.length l.
Proof. intros (u & v & w & ->). rewrite app_length. cbn. rewrite app_length. cbn. lia. Qed.
Lemma before_dup {T} (l : list T) a : before l a a -> ~ NoDup l.
Proof. intros (u & v & w & ->) H. apply NoDup_remove_2 in H. apply H. rewrite !in_app_iff. right. right. now left. Qed.

Lemma edge_same s X X' t : edge g p s X t -> edge g p s X' t -> X = X'.
Proof.
  intros E E'. destruct (au_edge g p A _ _ _ E) as (_ & k & Hi & HX). pose proof (au_goto g p A _ _ _ _ E Hi HX) as Ht.
  destruct (au_back g p A _ _ _ _ E' Ht) as (k0 & _ & HX' & Ek); [cbn; discriminate|]. assert (k = k0) by (destruct k, k0; unfold kadv in Ek; cbn in Ek; congruence). congruence.
Qed.
Lemma shift_multi t la ms : count_occ Nat.eq_dec ms la = List.length (filter (is_shift_to la t) (map (fun s => mkAct s (Shift t)) ms)).
Proof.
  induction ms as [|m ms IH]; cbn; auto. unfold is_shift_to at 1. cbn. rewrite Nat.eqb_refl, andb_true_r. destruct (Nat.eq_dec m la) as [->|N].
  - rewrite Nat.eqb_refl. cbn. now rewrite IH.
  - destruct (Nat.eqb_spec m la); [contradiction|]. exact IH.
Qed.
Lemma shift_count X t la : X < List.length (g_syms g) -> 2 <= List.length (filter (is_shift_to la t) (shift_actions g X t)) ->
  exists ms, kind_at g X = Some (KMulti ms) /\ 2 <= count_occ Nat.eq_dec ms la.
Proof.
  intros HX. rewrite (gsym_kind_at g X HX). unfold shift_actions. destruct (sy_kind (gsym g X)) as [| |ms]; cbn.
  1,2: destruct (is_shift_to la t _); cbn; lia.
  intros H. exists ms. split; auto. now rewrite (shift_multi t).
Qed.
Lemma acts_count la t : forall lst, NoDup (map fst lst) -> (forall X X', In (X, t) lst -> In (X', t) lst -> X = X') ->
  2 <= List.length (filter (is_shift_to la t) (acts_of g lst)) -> exists X, In (X, t) lst /\ 2 <= List.length (filter (is_shift_to la t) (shift_actions g X t)).
Proof.
  assert (Z : forall X t', t' <> t -> filter (is_shift_to la t) (shift_actions g X t') = []).
  { intros X t' N. unfold shift_actions. assert (HZ : forall m, is_shift_to la t (mkAct m (Shift t')) = false).
    { intros m. unfold is_shift_to. cbn. destruct (Nat.eqb_spec t' t); [contradiction|]. apply andb_false_r. }
    destruct (sy_kind (gsym g X)) as [| |ms]; cbn; rewrite ?HZ; auto. induction ms as [|m ms IH]; cbn; auto. now rewrite HZ. }
  unfold acts_of. induction lst as [|[X t'] lst IH]; intros ND HU H; cbn in H; [lia|]. rewrite filter_app, app_length in H. cbn in ND. inversion ND as [|? ? HN ND']; subst.
  destruct (Nat.eq_dec t' t) as [->|N].
  - exists X. split; [now left|]. enough (E : filter (is_shift_to la t) (flat_map (fun a => shift_actions g (fst a) (snd a)) lst) = []) by (rewrite E in H; cbn in H; lia).
    assert (HT : forall Y y, In (Y, y) lst -> y <> t).
    { intros Y y Hy ->. apply HN. rewrite (HU X Y); [|now left|now right]. apply in_map_iff. exists (Y, t). auto. }
    clear -Z HT. induction lst as [|[Y y] lst IH]; cbn; auto. rewrite filter_app, Z, IH; auto; [|apply (HT Y); now left]. intros Y' y' H. apply (HT Y'). now right.
  - rewrite Z in H by auto. cbn in H. destruct IH as (Y & H1 & H2); auto.
    + intros Y Y' H1 H2. apply HU; now right.
    + exists Y. split; auto. now right.
Qed.

Lemma filter_two {T} (f : T -> bool) c : (forall x, f x = true -> x = c) -> forall l, 2 <= List.length (filter f l) -> before l c c.
Proof.
  intros HF. assert (H1 : forall l, 1 <= List.length (filter f l) -> In c l).
  { intros l H. destruct (filter f l) as [|x r] eqn:E; [cbn in H; lia|]. assert (Hx : In x (filter f l)) by (rewrite E; now left). apply filter_In in Hx as [Hx Hf]. now rewrite <- (HF x Hf). }
  induction l as [|x l IH]; cbn; [lia|]. destruct (f x) eqn:E; cbn; intros H.
  - rewrite (HF x E). apply before_head, H1. lia.
  - apply before_cons, IH. auto.
Qed.
Lemma acts_count_ge la t X : forall lst, In (X, t) lst -> List.length (filter (is_shift_to la t) (shift_actions g X t)) <= List.length (filter (is_shift_to la t) (acts_of g lst)).
Proof.
  unfold acts_of. induction lst as [|[Y y] lst IH]; cbn; [contradiction|]. intros [E|H]; rewrite filter_app, app_length.
  - injection E as -> ->. lia.
  - specialize (IH H). lia.
Qed.
(** the sorted actions of a state, before precedences are looked at *)
Lemma raw_list s : s < List.length (p_states p) -> exists st1 l0, nth_error (raw_actions g p) s = Some st1 /\ l0 = ssort action_less (s_actions st1) /\
  (forall la d, In (mkAct la d) l0 <-> raw s la d) /\ sorted_by action_less l0 /\
  (forall la r, ~ before l0 (mkAct la (Reduce r)) (mkAct la (Reduce r))) /\
  (forall la t, before l0 (mkAct la (Shift t)) (mkAct la (Shift t)) <-> exists X ms, edge g p s X t /\ kind_at g X = Some (KMulti ms) /\ 2 <= count_occ Nat.eq_dec ms la).
Proof.
  intros Ls. assert (HS : exists st1, nth_error (raw_actions g p) s = Some st1).
  { destruct (nth_error (raw_actions g p) s) eqn:E; eauto. apply nth_error_None in E. unfold raw_actions in E. rewrite upd_length, map_length in E. lia. }
  destruct HS as [st1 H1]. destruct (raw_actions_spec g W p A s st1 H1) as (st & Hst & _ & _ & HI & l1 & El & HF & ND).
  pose proof (ssort_perm action_less (s_actions st1)) as HP. exists st1, (ssort action_less (s_actions st1)). splits; auto.
  - intros la d. rewrite <- HI. split; apply Permutation_in; [|symmetry]; auto; now symmetry.
  - apply ssort_actions_sorted.
  - intros la r HB. apply (filter_before is_red) in HB; auto. apply before_dup in HB. apply HB.
    assert (HP2 : Permutation (filter is_red l1) (filter is_red (ssort action_less (s_actions st1)))).
    { apply (filter_perm is_red) in HP. rewrite El, filter_app in HP. replace (filter is_red (if s =? 0 then [mkAct (g_start g) Accept] else [])) with (@nil action) in HP by now destruct (s =? 0).
      rewrite app_nil_r in HP. rewrite <- El in HP. first [exact HP|symmetry; exact HP]. }
    eapply Permutation_NoDup; eauto.
  - intros la t. assert (HL : List.length (filter (is_shift_to la t) (ssort action_less (s_actions st1))) = List.length (filter (is_shift_to la t) (s_actions st1))).
    { pose proof (Permutation_length (filter_perm (is_shift_to la t) _ _ HP)). lia. }
    destruct (au_acts g p A s st Hst) as (lst & E1 & N1 & HE).
    assert (HL2 : filter (is_shift_to la t) (s_actions st1) = filter (is_shift_to la t) (acts_of g lst)).
    { unfold raw_actions in H1. rewrite nth_error_upd, nth_error_map, Hst in H1. cbn [option_map] in H1.
      assert (ZR : filter (is_shift_to la t) (reduce_actions g (p_cfgs p) st) = []).
      { clear. unfold reduce_actions. induction (s_configs st) as [|c l IH]; cbn; auto. rewrite filter_app, IH, app_nil_r. destruct (_ =? _); auto.
        induction (filter _ (seq 0 (g_nterm g))) as [|j js IHj]; cbn; auto. unfold is_shift_to at 1. cbn. destruct (j =? la); cbn; exact IHj. }
      destruct (0 =? s); injection H1 as <-; cbn; rewrite ?filter_app, ZR, E1; cbn; rewrite ?app_nil_r; auto.
      replace (is_shift_to la t (mkAct (g_start g) Accept)) with false by (unfold is_shift_to; cbn; now destruct (g_start g =? la)). now rewrite app_nil_r. }
    rewrite HL2 in HL. clear HL2. split.
    + intros HB. apply (filter_before (is_shift_to la t)) in HB; [|unfold is_shift_to; cbn; now rewrite !Nat.eqb_refl..]. apply before_two in HB. rewrite HL in HB.
      destruct (acts_count la t lst N1) as (X & HX & HC); auto.
      * intros X X' A1 A2. apply HE in A1, A2. eapply edge_same; eauto.
      * apply HE in HX. destruct (shift_count X t la) as (ms & K1 & K2); auto; [apply (edge_sym g W p A _ _ _ HX)|]. exists X, ms. auto.
    + intros (X & ms & EX & KX & CX). apply (filter_two (is_shift_to la t)).
      * intros [la' d] H. unfold is_shift_to in H. cbn in H. apply andb_true_iff in H as [Ha Hd]. apply Nat.eqb_eq in Ha. destruct d; try discriminate. apply Nat.eqb_eq in Hd. now subst.
      * rewrite HL. apply HE in EX as EL. eapply Nat.le_trans; [|apply (acts_count_ge la t X lst EL)].
        pose proof (edge_sym g W p A _ _ _ EX) as [HX _]. rewrite (gsym_kind_at g X HX) in KX. injection KX as KX. unfold shift_actions. rewrite KX, <- shift_multi. exact CX.
Qed.
Lemma sum_pos {T} (f : T -> nat) l : forall n, n < fold_left (fun n x => n + f x) l n -> exists x, In x l /\ 0 < f x.
Proof.
  induction l as [|a l IH]; intros n H; cbn in H; [lia|]. destruct (f a) as [|k] eqn:E; [|exists a; split; [now left|lia]].
  rewrite Nat.add_0_r in H. destruct (IH n H) as (x & H1 & H2). exists x. split; auto. now right.
Qed.
Lemma raw_length : List.length (raw_actions g p) = List.length (p_states p).
Proof. unfold raw_actions. now rewrite upd_length, map_length. Qed.
Lemma became_refl P l : Forall2 (became P) l l.
Proof. induction l; constructor; auto. split; auto. Qed.
Lemma kind_or m : kind_at g m = Some KNonTerm \/ kind_at g m <> Some KNonTerm.
Proof. destruct (kind_at g m) as [[| |]|]; auto; right; discriminate. Qed.
Lemma reduce_term s a r : raw s a (Reduce r) -> kind_at g a <> Some KNonTerm.
Proof. intros R K. inversion R; subst. apply (nonterm_ge g W) in K. lia. Qed.
Lemma shift_nonterm s a t : raw s a (Shift t) -> kind_at g a = Some KNonTerm -> edge g p s a t.
Proof.
  intros R K. inversion R as [X t' m E C| |]; subst. unfold covers in C. destruct (kind_at g X) as [[| |ms]|] eqn:KX; subst; auto.
  destruct (wg_multi g W X ms a KX C) as (_ & _ & Hk). congruence.
Qed.

Lemma before_order l a b : sorted_by action_less l -> before l a b -> action_less b a = false.
Proof.
  intros HS (u & v & w & ->). unfold sorted_by in HS. induction u as [|x u IH]; cbn in HS; inversion HS as [|? ? H1 H2]; subst; auto.
  rewrite Forall_forall in H2. apply H2. apply in_app_iff. right. now left.
Qed.


(** ** One lookahead at a time *)
Lemma against_shift : forall l ap n m ap' l' n', resolve_against g ap l n = (ap', l', n') -> n <= n' /\ resolve_against g ap l m = (ap', l', m + (n' - n)).
Proof.
  induction l as [|b l IH]; intros ap n m ap' l' n' H; cbn [resolve_against] in *.
  - injection H as <- <- <-. split; auto. f_equal. lia.
  - destruct (a_la ap =? a_la b); [|injection H as <- <- <-; split; auto; f_equal; lia].
    destruct (resolve_conflict _ _ _ _) as [[dx dy] e]. destruct (resolve_against g (mkAct (a_la ap) dx) l (if e then S n else n)) as [[a2 l2] n2] eqn:E. injection H as <- <- <-.
    destruct (IH _ _ (if e then S m else m) _ _ _ E) as [L ->]. split; [destruct e; lia|]. f_equal. destruct e; lia.
Qed.
Lemma all_shift : forall k l n m l' n', resolve_all g k l n = (l', n') -> n <= n' /\ resolve_all g k l m = (l', m + (n' - n)).
Proof.
  induction k as [|k IH]; intros l n m l' n' H; cbn [resolve_all] in *; [injection H as <- <-; split; auto; f_equal; lia|].
  destruct l as [|ap l]; [injection H as <- <-; split; auto; f_equal; lia|].
  destruct (resolve_against g ap l n) as [[a1 l1] n1] eqn:E1. destruct (resolve_all g k l1 n1) as [l2 n2] eqn:E2. injection H as <- <-.
  destruct (against_shift _ _ _ m _ _ _ E1) as [L1 ->]. destruct (IH _ _ (m + (n1 - n)) _ _ E2) as [L2 ->]. split; [lia|]. f_equal. lia.
Qed.
Definition lost_count (l : list action) : nat := snd (resolve_all g (List.length l) l 0).
Lemma group_count : forall k l n l' n', k = List.length l -> la_sorted l -> resolve_all g k l n = (l', n') -> n < n' -> exists la, 0 < lost_count (group la l).
Proof.
  induction k as [|k IH]; intros l n l' n' Hk Hs H Hn; destruct l as [|ap l]; try discriminate; cbn [resolve_all] in H; [injection H as <- <-; lia|].
  simpl in Hk. injection Hk as Hk. destruct (resolve_against g ap l n) as [[ap1 l1] n1] eqn:E1. destruct (resolve_all g k l1 n1) as [l2 n2] eqn:E2. injection H as <- <-.
  destruct (resolve_against_la _ _ _ _ _ _ _ E1) as [La Lm].
  assert (Hk1 : k = List.length l1) by (rewrite <- (map_length a_la l1), Lm, map_length; auto).
  assert (Hs1 : la_sorted l1) by (inversion Hs; subst; apply (la_sorted_map l l1); auto).
  assert (HE : forall la, lost_count (group la (ap :: l)) = (if a_la ap =? la then n1 - n else 0) + lost_count (group la l1)).
  { intros la. destruct (resolve_against_group g la _ _ _ _ _ _ Hs E1) as [G1 G2]. unfold group at 1. cbn [filter]. fold (group la l). destruct (Nat.eqb_spec (a_la ap) la) as [He|Hne].
    - unfold lost_count at 1. cbn [List.length resolve_all]. destruct (against_shift _ _ _ 0 _ _ _ (G1 He)) as [_ ->]. cbn [Nat.add].
      replace (List.length (group la l)) with (List.length (group la l1)).
      2:{ specialize (G1 He). apply resolve_against_la in G1 as [_ G1]. rewrite <- (map_length a_la), G1, map_length. reflexivity. }
      unfold lost_count. destruct (resolve_all g (List.length (group la l1)) (group la l1) 0) as [l3 n3] eqn:E3. destruct (all_shift _ _ _ (n1 - n) _ _ E3) as [_ ->]. cbn. lia.
    - rewrite <- (G2 Hne). reflexivity. }
  destruct (Nat.lt_ge_cases n n1) as [L|L].
  - exists (a_la ap). rewrite HE, Nat.eqb_refl. lia.
  - destruct (IH l1 n1 l2 n2 Hk1 Hs1 E2) as [la Hla]; [lia|]. exists la. rewrite HE. lia.
Qed.
Lemma group_count_0 l l' la : la_sorted l -> resolve_all g (List.length l) l 0 = (l', 0) -> lost_count (group la l) = 0.
Proof. intros Hs H. apply (resolve_all_group g la _ l 0 _ eq_refl Hs) in H. unfold lost_count. now rewrite H. Qed.

Lemma before_filter {T} (f : T -> bool) : forall l a b, before (filter f l) a b -> before l a b.
Proof.
  induction l as [|x l IH]; intros a b (u & v & w & E); cbn in E; [destruct u; discriminate|]. destruct (f x).
  - destruct u as [|y u]; cbn in E; injection E as -> E.
    + apply before_head. assert (Hb : In b (filter f l)) by (rewrite E; apply in_app_iff; right; now left). now apply filter_In in Hb.
    + apply before_cons, IH. now exists u, v, w.
  - apply before_cons, IH. now exists u, v, w.
Qed.
Lemma upl_group la : forall l, sorted_by action_less l -> (forall x, In x l -> a_la x = la /\ sr (a_det x)) -> (forall r, ~ before l (mkAct la (Reduce r)) (mkAct la (Reduce r))) ->
  upl (dets l).
Proof.
  induction l as [|[x d] l IH]; intros Hs HL HN; cbn; auto. split.
  - apply Forall_forall. intros d' Hd. apply in_map_iff in Hd as ([x' d2] & E & Hin). cbn in E. subst d2. pose proof (before_head (mkAct x d) l _ Hin) as HB. pose proof (before_order _ _ _ Hs HB) as HO.
    destruct (HL (mkAct x d) (or_introl eq_refl)) as [E1 S1]. destruct (HL _ (or_intror Hin)) as [E2 S2]. cbn in E1, S1, E2, S2. subst x x'.
    apply action_less_false in HO as [HO|[_ HO]]; [cbn in HO; lia|]. apply key_less_false in HO. destruct d as [t| |r| | | | | | |], d' as [t'| |r'| | | | | | |]; try contradiction; cbn in *; auto; try lia.
    destruct (Nat.eq_dec r r') as [<-|]; [now apply HN in HB|lia].
  - unfold sorted_by in Hs. inversion Hs; subst. apply IH; auto; [intros y Hy; apply HL; now right|]. intros r HB. apply (HN r). now apply before_cons.
Qed.
Lemma dets_before l a b u v w : dets l = u ++ a :: v ++ b :: w -> exists x y, before l x y /\ a_det x = a /\ a_det y = b.
Proof.
  unfold dets. intros E. apply map_eq_app in E as (l1 & l2 & -> & E1 & E2). apply map_eq_cons in E2 as (x & l3 & -> & E3 & E4). apply map_eq_app in E4 as (l4 & l5 & -> & E5 & E6). apply map_eq_cons in E6 as (y & l6 & -> & E7 & E8).
  exists x, y. splits; auto. now exists l1, l4, l6.
Qed.
Lemma before_dets l x y : before l x y -> exists u v w, dets l = u ++ a_det x :: v ++ a_det y :: w.
Proof. intros (u & v & w & ->). exists (dets u), (dets v), (dets w). unfold dets. rewrite map_app. cbn. now rewrite map_app. Qed.
Lemma two_before {T} (l : list T) a b : In a l -> In b l -> a <> b -> before l a b \/ before l b a.
Proof.
  intros Ha Hb N. apply in_split in Ha as (u & v & ->). apply in_app_iff in Hb as [Hb|[Hb|Hb]]; [right|congruence|left].
  - apply in_split in Hb as (u1 & u2 & ->). exists u1, u2, v. now rewrite <- app_assoc.
  - apply in_split in Hb as (u1 & u2 & ->). now exists u, u1, u2.
Qed.

Lemma shift_raw gamma s a X : path g p gamma s -> offers g gamma a (MShift X) -> exists t, edge g p s X t /\ raw s a (Shift t).
Proof.
  intros Hp H. inversion H as [r ru d X' al H0 Hr Hd HM|]; subst. pose proof (lr0_item g p A _ _ _ H0 _ Hp) as Hi.
  destruct (au_next g p A s (r, d) X Hi) as [t Ht].
  { eapply kpost_nth; eauto. }
  exists t. split; auto. econstructor; eauto. unfold covers. destruct HM as [[<- K]|(ms & K & HM)]; rewrite K; auto.
Qed.
Lemma reduce_raw_at gamma s a r : path g p gamma s -> offers g gamma a (MReduce r) -> raw s a (Reduce r).
Proof. intros Hp H. destruct (reduce_raw gamma a r H) as (s' & _ & Hp' & HR). now rewrite (path_fun g p A _ _ _ Hp Hp'). Qed.
Lemma offers_path gamma a m : offers g gamma a m -> exists s, path g p gamma s /\ s < List.length (p_states p).
Proof.
  intros H. assert (HL : exists r d, lr0 g gamma r d).
  { inversion H as [r ru d X al H0 _ _ _|gamma' r ru HA _ HL _]; subst; [eauto|]. apply lr1_lr0 in HL. apply HA in HL. eauto. }
  destruct HL as (r & d & HL). destruct (lr0_viable g p A _ _ _ HL) as [s Hs]. exists s. split; auto. eapply path_range; eauto.
Qed.
Lemma forallb_no {T} (f : T -> bool) l : forallb f l = false -> exists x, In x l /\ f x = false.
Proof.
  induction l as [|x l IH]; cbn; [discriminate|]. destruct (f x) eqn:E; [|exists x; auto]. intros H. destruct (IH H) as (y & H1 & H2). exists y. auto.
Qed.
Theorem lost_found e : find_actions g p = GErr e -> e = ENotReduced /\ exists r, lost g r.
Proof.
  unfold find_actions. intros H. destruct (any_panics _); [discriminate|]. destruct (forallb _ _) eqn:EF; [discriminate|]. injection H as <-. split; auto.
  apply forallb_no in EF as (r & Hr & EF). apply in_seq in Hr. exists r. split; [lia|]. intros gamma a HO. destruct (reduce_raw gamma a r HO) as (s & Ls & Hg & HRaw).
  destruct (raw_list s Ls) as (st1 & l0 & H2 & El & HI & HS & HR & HSh).
  set (P := fun b : action => exists c, a_la c = a_la b /\ (before l0 c b /\ rcy g (a_la b) (a_det c) (a_det b) <> a_det b \/ before l0 b c /\ rcx g (a_la b) (a_det b) (a_det c) <> a_det b)).
  destruct (resolve_all g (List.length l0) l0 0) as [l' n'] eqn:ER.
  destruct (all_hist g P l0 l0 0 l' n') as (HF & _); auto.
  { apply became_refl. }
  { intros x y HB HE HY. exists x. auto. }
  { intros x y HB HE HY. exists y. rewrite HE. auto. }
  apply HI in HRaw as Hin. destruct (forall2_in_l _ _ _ _ HF Hin) as ([la' d'] & Hin' & [E1 [E2|[_ HP]]]).
  { exfalso. injection E2 as -> ->. assert (HT : existsb (fun s => existsb (is_reduce r) (s_actions s)) (map fst (map (resolve_state g) (raw_actions g p))) = true); [|congruence].
    apply existsb_exists. exists (fst (resolve_state g st1)). split.
    - apply in_map, in_map. eapply nth_error_In; eauto.
    - unfold resolve_state. rewrite <- El, ER. cbn. apply existsb_exists. exists (mkAct a (Reduce r)). split; auto. unfold is_reduce. cbn. apply Nat.eqb_refl. }
  clear d' la' Hin' E1. destruct HP as ([la d] & E & HP). cbn in E. subst la. cbn in HP. pose proof (reduce_term _ _ _ HRaw) as K.
  assert (Hd : raw s a d).
  { apply HI. destruct HP as [[HB _]|[HB _]]; apply before_in in HB; tauto. }
  destruct HP as [[HB HP]|[HB HP]]; pose proof (before_order _ _ _ HS HB) as HL; unfold rcx, rcy in HP.
  - destruct d as [t| |q| | | | | | |]; try (now contradict HP).
    + pose proof (raw_offers gamma s a _ Hg K Hd Logic.I) as (X & EX & CX & OX). exists (MShift X). splits; auto; [discriminate|]. intros (i & j & u & v & P1 & P2 & P3). cbn in P2. cbn in HP. rewrite P1, P2 in HP.
      unfold precedence_cmp in HP. cbn in HP. destruct P3 as [P3|[<- P3]]; [apply Nat.compare_gt_iff in P3 as P4; rewrite (proj2 (Nat.compare_lt_iff j i) P3) in HP; now apply HP|].
      rewrite Nat.compare_refl in HP. destruct v; now apply HP || now apply P3.
    + pose proof (raw_offers gamma s a _ Hg K Hd Logic.I) as OX. cbn in OX.
      assert (N : q <> r) by (intros ->; now apply HR in HB). exists (MReduce q). splits; auto; [congruence|]. intros (i & j & u & v & P1 & P2 & P3). cbn in P2. cbn in HP. rewrite P1, P2 in HP.
      apply action_less_false in HL as [HL|[_ HL]]; [cbn in HL; lia|]. apply key_less_false in HL. cbn in HL. unfold precedence_cmp in HP. cbn in HP.
      destruct P3 as [P3|[<- P3]]; [rewrite (proj2 (Nat.compare_lt_iff j i) P3) in HP; now apply HP|]. rewrite Nat.compare_refl in HP. destruct P3 as [[_ ->]|[P3 _]]; [now apply HP|lia].
  - destruct d as [t| |q| | | | | | |]; try (now contradict HP).
    pose proof (raw_offers gamma s a _ Hg K Hd Logic.I) as OX. cbn in OX.
    assert (N : q <> r) by (intros ->; now apply HR in HB). exists (MReduce q). splits; auto; [congruence|]. intros (i & j & u & v & P1 & P2 & P3). cbn in P2. cbn in HP. rewrite P1, P2 in HP.
    apply action_less_false in HL as [HL|[_ HL]]; [cbn in HL; lia|]. apply key_less_false in HL. cbn in HL. unfold precedence_cmp in HP. cbn in HP.
    destruct P3 as [P3|[<- P3]]; [rewrite (proj2 (Nat.compare_gt_iff i j) P3) in HP; now apply HP|]. rewrite Nat.compare_refl in HP. destruct P3 as [[P3 _]|[_ ->]]; [lia|now apply HP].
Qed.

(** ** Exactly when a conflict is reported *)
Definition some_prec (q : prec) : Prop := (exists a, sy_prec (gsym g a) = Some q) \/ exists r, r_prec (grule g r) = Some q.
Hypothesis OW : forall i u v, some_prec (i, u) -> some_prec (i, v) -> u = v.
Lemma dprec_word la x y i u v : dprec g la x = Some (i, u) -> dprec g la y = Some (i, v) -> u = v.
Proof.
  assert (H : forall z q, dprec g la z = Some q -> some_prec q) by (intros z q; unfold some_prec; destruct z; cbn; intros H; try discriminate; eauto).
  intros H1 H2. apply (OW i); eauto.
Qed.

Lemma raw_sr s la d : la <> g_start g -> raw s la d -> sr d.
Proof. intros N R. inversion R; subst; cbn; auto. Qed.

Section State.
Context (s : nat) (l0 : list action).
Hypothesis HI : forall la d, In (mkAct la d) l0 <-> raw s la d.
Hypothesis HS : sorted_by action_less l0.
Hypothesis HR : forall la r, ~ before l0 (mkAct la (Reduce r)) (mkAct la (Reduce r)).
Hypothesis HSh : forall la t, before l0 (mkAct la (Shift t)) (mkAct la (Shift t)) <-> exists X ms, edge g p s X t /\ kind_at g X = Some (KMulti ms) /\ 2 <= count_occ Nat.eq_dec ms la.

Lemma group_raw la d : In d (dets (group la l0)) <-> raw s la d.
Proof.
  unfold dets. rewrite in_map_iff, <- HI. split.
  - intros ([la' d'] & <- & H). apply group_in in H as [H E]. cbn in *. now subst.
  - intros H. exists (mkAct la d). split; auto. apply group_in. auto.
Qed.
Lemma group_facts la : la <> g_start g -> (forall x, In x (dets (group la l0)) -> sr x) /\ upl (dets (group la l0)) /\ live la (group la l0).
Proof.
  intros N. assert (HX : forall x, In x (group la l0) -> a_la x = la /\ sr (a_det x)).
  { intros [la' d] H. apply group_in in H as [H E]. cbn in E. subst la'. split; auto. apply HI in H. eapply raw_sr; eauto. }
  splits.
  - intros x Hx. apply group_raw in Hx. eapply raw_sr; eauto.
  - apply (upl_group la); auto; [now apply sorted_filter|]. intros r HB. apply before_filter in HB. now apply HR in HB.
  - unfold live. apply Forall_forall. auto.
Qed.
Lemma upl_ordl l : (forall x, In x l -> sr x) -> upl l -> ordl l.
Proof.
  induction l as [|x l IH]; cbn; auto. intros HX [H1 H2]. split; [|apply IH; auto]. rewrite Forall_forall in *. intros y Hy r t -> ->. specialize (H1 _ Hy). contradiction.
Qed.
Lemma group_duel la c l : la <> g_start g -> group la l0 = c :: l -> a_la c = la /\ lost_count (group la l0) = snd (duels g la (a_det c) (dets l)) /\
  forall r, In (mkAct la (Reduce r)) (fst (resolve_all g (List.length (group la l0)) (group la l0) 0)) -> Reduce r = fst (duels g la (a_det c) (dets l)).
Proof.
  intros N E. destruct (group_facts la N) as (F1 & F2 & F3). rewrite E in *. pose proof (Forall_inv F3) as [Lc Sc]. pose proof (Forall_inv_tail F3) as Fl. cbn [dets map] in F1, F2. fold (dets l) in F1, F2.
  pose proof (upl_ordl _ F1 F2) as FO. split; auto. unfold lost_count. cbn [List.length]. destruct (resolve_all g (S (List.length l)) (c :: l) 0) as [l' n'] eqn:ER.
  replace c with (mkAct la (a_det c)) in ER by (rewrite <- Lc; now destruct c). destruct (all_duel g la _ (a_det c) l 0 l' n' (le_n _) Sc Fl FO ER) as (R1 & R2 & R3). cbn. split; auto.
  intros r Hr. apply (R3 _ Hr). exact Logic.I.
Qed.

Lemma undecided_iff gamma la : path g p gamma s -> kind_at g la <> Some KNonTerm -> undecided_in g la (dets (group la l0)) <-> conflict_at g gamma la.
Proof.
  intros Hg K. assert (HO : forall d, raw s la d -> sr d -> match d with Shift t => exists X, edge g p s X t /\ covers g X la /\ offers g gamma la (MShift X) | Reduce r => offers g gamma la (MReduce r) | _ => False end) by (intros d; now apply raw_offers).
  assert (HM : forall m, offers g gamma la m -> exists d, raw s la d /\ dprec g la d = says_prec g la m /\ match m, d with MShift X, Shift t => edge g p s X t | MReduce r, Reduce q => q = r | _, _ => False end).
  { intros [X|r] Hm; [destruct (shift_raw gamma s la X Hg Hm) as (t & Et & Rt); now exists (Shift t)|]. exists (Reduce r). splits; auto. now apply (reduce_raw_at gamma). }
  assert (Ns : la <> g_start g) by (intros ->; apply K, (wg_start g W)).
  split.
  - intros [(u & t & v & t' & w & E)|[(x & y & Hx & Hy & N & P)|(r & q & i & Lrq & Hr & Hq & Pr & Pq & HN)]].
    + destruct (dets_before _ _ _ _ _ _ E) as ([a d] & [a' d'] & HB & Ed & Ed'). cbn in Ed, Ed'. subst d d'. destruct (before_in _ _ _ HB) as [I1 I2]. apply group_in in I1 as [I1 E1], I2 as [I2 E2]. cbn in E1, E2. subst a a'.
      apply before_filter in HB. apply HI in I1, I2. destruct (HO _ I1 Logic.I) as (X & EX & CX & OX). destruct (HO _ I2 Logic.I) as (Y & EY & CY & OY). destruct (Nat.eq_dec X Y) as [<-|NX].
      * right. rewrite (au_fun g p A _ _ _ _ EY EX) in HB. apply HSh in HB as (Z & ms & EZ & KZ & CZ). rewrite (edge_same _ _ _ _ EX EZ) in OX. eauto.
      * left. exists (MShift X), (MShift Y). splits; auto; [congruence|exact Logic.I].
    + apply group_raw in Hx, Hy. pose proof (HO _ Hx (raw_sr _ _ _ Ns Hx)) as Ox. pose proof (HO _ Hy (raw_sr _ _ _ Ns Hy)) as Oy. left.
      destruct x as [t| |r| | | | | | |]; try contradiction; destruct y as [t'| |r'| | | | | | |]; try contradiction.
      * destruct Ox as (X & EX & _ & OX), Oy as (Y & EY & _ & OY). exists (MShift X), (MShift Y). splits; auto; [|exact Logic.I]. intros E. injection E as <-. apply N. f_equal. eapply (au_fun g p A); eauto.
      * destruct Ox as (X & EX & _ & OX). exists (MShift X), (MReduce r'). splits; auto; [discriminate|]. left. exact P.
      * destruct Oy as (Y & EY & _ & OY). exists (MReduce r), (MShift Y). splits; auto; [discriminate|]. left. exact P.
      * exists (MReduce r), (MReduce r'). splits; auto; [congruence|]. left. exact P.
    + apply group_raw in Hr, Hq. left. exists (MReduce r), (MReduce q). splits; auto; [apply (HO _ Hr Logic.I)|apply (HO _ Hq Logic.I)|intros E; injection E as <-; lia|].
      right. right. exists i. splits; auto. rewrite Nat.max_r by lia. intros (m & j & v & Om & Pm & Lm & Bm). destruct (HM m Om) as (d & Rd & Pd & Md). rewrite Pm in Pd. apply group_raw in Rd.
      specialize (HN d j v Rd Pd Lm). destruct m, d; try contradiction. subst. lia.
  - intros [(m & m' & Om & Om' & N & HC)|(X & ms & OX & KX & CX)].
    + assert (HT : forall d d', raw s la d -> raw s la d' -> d <> d' -> dprec g la d = None -> undecided_in g la (dets (group la l0))).
      { intros d d' Rd Rd' Nd Pd. right. left. exists d, d'. splits; auto; now apply group_raw. }
      destruct (HM m Om) as (d & Rd & Pd & Md). destruct (HM m' Om') as (d' & Rd' & Pd' & Md').
      assert (Nd : d <> d').
      { intros <-. apply N. destruct m, m', d; try contradiction; f_equal; [eapply edge_same; eauto|congruence]. }
      assert (HP : says_prec g la m = None \/ says_prec g la m' = None -> undecided_in g la (dets (group la l0))).
      { intros [P|P]; [apply (HT d d'); auto; now rewrite Pd|apply (HT d' d); auto; now rewrite Pd']. }
      destruct m as [X|r], m' as [Y|q]; cbn in HC; auto.
      * destruct d as [t| | | | | | | | |], d' as [t'| | | | | | | | |]; try contradiction. left. apply HI in Rd, Rd'.
        assert (G1 : In (mkAct la (Shift t)) (group la l0)) by (apply group_in; auto). assert (G2 : In (mkAct la (Shift t')) (group la l0)) by (apply group_in; auto).
        destruct (two_before _ _ _ G1 G2) as [HB|HB]; [congruence| |]; apply before_dets in HB as (u & v & w & HB); exists u; [exists t|exists t']; exists v; [exists t'|exists t]; now exists w.
      * destruct HC as [HC|[HC|(i & P1 & P2 & HN)]]; auto. destruct d as [| |r1| | | | | | |], d' as [| |q1| | | | | | |]; try contradiction. subst r1 q1.
        right. right. assert (HX : forall x k, k = Nat.max r q -> raw s la x -> forall j v, dprec g la x = Some (j, v) -> i < j -> match x with Reduce q' => k <= q' | _ => False end).
        { intros x k -> Rx j v Px Lx. pose proof (HO _ Rx (raw_sr _ _ _ Ns Rx)) as Ox. destruct x as [t| |q'| | | | | | |]; try contradiction.
          - destruct Ox as (X & EX & _ & OX). apply HN. exists (MShift X), j, v. auto.
          - destruct (Nat.lt_ge_cases q' (Nat.max r q)) as [L|L]; auto. exfalso. apply HN. exists (MReduce q'), j, v. auto. }
        destruct (Nat.lt_trichotomy r q) as [L|[E|L]]; [|congruence|].
        -- exists r, q, i. splits; auto; try (now apply group_raw). intros x j v Hx. apply group_raw in Hx. apply (HX x q); auto. lia.
        -- exists q, r, i. splits; auto; try (now apply group_raw). intros x j v Hx. apply group_raw in Hx. apply (HX x r); auto. lia.
    + left. destruct (shift_raw gamma s la X Hg OX) as (t & Et & Rt). assert (HB : before l0 (mkAct la (Shift t)) (mkAct la (Shift t))) by (apply HSh; eauto).
      apply (filter_before (fun a => a_la a =? la)) in HB; [|apply Nat.eqb_refl..]. apply before_dets in HB as (u & v & w & HB). exists u, t, v, t, w. exact HB.
Qed.

Lemma group_conflict gamma la : path g p gamma s -> kind_at g la <> Some KNonTerm -> 0 < lost_count (group la l0) <-> conflict_at g gamma la.
Proof.
  intros Hg K. assert (Ns : la <> g_start g) by (intros ->; apply K, (wg_start g W)). rewrite <- (undecided_iff gamma la Hg K). destruct (group la l0) as [|c l] eqn:E.
  - cbn. split; [lia|]. intros [(u & t & v & t' & w & X)|[(x & y & [] & _)|(r & q & i & _ & [] & _)]]. destruct u; discriminate.
  - destruct (group_duel la c l Ns E) as (_ & R & _). rewrite E in R. rewrite R. destruct (group_facts la Ns) as (F1 & F2 & _). rewrite E in F1, F2. cbn [dets map] in *.
    apply duel_exact; auto. apply dprec_word.
Qed.
(** A lookahead that is no token is offered at most one action. *)
Lemma nonterm_count la : kind_at g la = Some KNonTerm -> lost_count (group la l0) = 0.
Proof.
  intros K. unfold lost_count. destruct (resolve_all g (List.length (group la l0)) (group la l0) 0) as [l' n'] eqn:ER. cbn. destruct (Nat.eq_dec n' 0) as [|N]; auto. exfalso.
  destruct (all_hist g (fun _ => True) (group la l0) (group la l0) 0 l' n') as (_ & HC); auto; [apply became_refl|]. destruct HC as ([a d] & [a' d'] & HB & E & Hc); [lia|]. cbn in E, Hc. subst a'.
  destruct (before_in _ _ _ HB) as [I1 I2]. apply group_in in I1 as [I1 E1], I2 as [I2 E2]. cbn in E1, E2. subst a. apply HI in I1, I2. apply before_filter in HB. unfold clash in Hc.
  destruct d as [t| |r| | | | | | |]; try discriminate Hc; [|now apply (reduce_term _ _ _ I1)].
  destruct d' as [t'| |r'| | | | | | |]; try discriminate Hc; [|now apply (reduce_term _ _ _ I2)].
  pose proof (shift_nonterm _ _ _ I1 K) as EA. pose proof (shift_nonterm _ _ _ I2 K) as EB. rewrite (au_fun g p A _ _ _ _ EA EB) in *.
  apply HSh in HB as (X & ms & EX & KX & _). rewrite (edge_same _ _ _ _ EB EX) in K. congruence.
Qed.
End State.

Lemma conflict_term gamma la : conflict_at g gamma la -> kind_at g la <> Some KNonTerm.
Proof.
  assert (H : forall m, offers g gamma la m -> kind_at g la <> Some KNonTerm).
  { intros m H K. inversion H as [r ru d X al _ _ _ HM|gamma' r ru _ _ _ HL]; subst.
    - destruct HM as [[_ E]|(ms & KX & HM)]; [congruence|]. destruct (wg_multi g W X ms la KX HM) as (_ & _ & Hk). congruence.
    - apply (nonterm_ge g W) in K. lia. }
  intros [(m & m' & Om & _)|(X & ms & OX & _)]; eauto.
Qed.

Lemma sum_mono {T} (f : T -> nat) l : forall n, n <= fold_left (fun n x => n + f x) l n.
Proof. induction l as [|a l IH]; intros n; cbn; auto. specialize (IH (n + f a)). lia. Qed.
Lemma sum_ge {T} (f : T -> nat) l x : In x l -> 0 < f x -> forall n, 0 < fold_left (fun n x => n + f x) l n.
Proof.
  induction l as [|a l IH]; [contradiction|]. intros [->|H] Hf n; cbn; auto. pose proof (sum_mono f l (n + f x)). lia.
Qed.

Theorem conflict_exact p3 n : find_actions g p = GOk (p3, n) -> 0 < n <-> conflicting g.
Proof.
  unfold find_actions. intros H. destruct (any_panics _); [discriminate|]. destruct (forallb _ _); [|discriminate]. injection H as _ En. rewrite <- En. split.
  - intros Hn. apply sum_pos in Hn as (x & Hx & Hp). apply in_map_iff in Hx as (st1 & <- & Hin). apply In_nth_error in Hin as [s Hs].
    assert (Ls : s < List.length (p_states p)) by (rewrite <- raw_length; apply nth_error_Some; congruence).
    destruct (raw_list s Ls) as (st2 & l0 & H2 & El & HI & HS & HR & HSh). assert (st2 = st1) by congruence. subst st2.
    unfold resolve_state in Hp. rewrite <- El in Hp. destruct (resolve_all g (List.length l0) l0 0) as [l' n'] eqn:ER. cbn in Hp.
    destruct (group_count _ l0 0 l' n' eq_refl (sorted_la_sorted _ HS) ER Hp) as [la Hla]. destruct (path_reach g p A s Ls) as [gamma Hg]. exists gamma, la.
    destruct (kind_or la) as [K|K]; [rewrite (nonterm_count s l0 HI HSh la K) in Hla; lia|]. now apply (group_conflict s l0 HI HS HR HSh).
  - intros (gamma & la & HC). pose proof (conflict_term _ _ HC) as K.
    assert (HP : exists s, path g p gamma s /\ s < List.length (p_states p)) by (destruct HC as [(m & m' & Om & _)|(X & ms & OX & _)]; eapply offers_path; eauto).
    destruct HP as (s & Hg & Ls). destruct (raw_list s Ls) as (st1 & l0 & H2 & El & HI & HS & HR & HSh). apply (group_conflict s l0 HI HS HR HSh gamma la Hg K) in HC.
    apply (sum_ge snd _ (resolve_state g st1)); [apply in_map; eapply nth_error_In; eauto|]. unfold resolve_state. rewrite <- El. destruct (resolve_all g (List.length l0) l0 0) as [l' n'] eqn:ER. cbn.
    destruct (Nat.eq_dec n' 0) as [->|]; [|lia]. rewrite (group_count_0 l0 l' la (sorted_la_sorted _ HS) ER) in HC. lia.
Qed.

Theorem lost_exact p3 : find_actions g p = GOk (p3, 0) -> forall r, ~ lost g r.
Proof.
  unfold find_actions. intros H r [Lr HLost]. destruct (any_panics _); [discriminate|]. destruct (forallb _ _) eqn:EF; [|discriminate]. injection H as _ En.
  rewrite forallb_forall in EF. specialize (EF r ltac:(apply in_seq; lia)). apply existsb_exists in EF as (st' & Hst & EF). apply existsb_exists in EF as ([la d] & Hin & EF).
  unfold is_reduce in EF. cbn in EF. destruct d; try discriminate. apply Nat.eqb_eq in EF. subst r0. apply in_map_iff in Hst as ([st2 k] & <- & Hst). apply in_map_iff in Hst as (st1 & E & Hst). apply In_nth_error in Hst as [s Hs].
  assert (Ls : s < List.length (p_states p)) by (rewrite <- raw_length; apply nth_error_Some; congruence).
  assert (Hk : k = 0).
  { destruct (Nat.eq_dec k 0); auto. exfalso. assert (0 < fold_left (fun n x => n + snd x) (map (resolve_state g) (raw_actions g p)) 0); [|lia].
    apply (sum_ge snd _ (st2, k)); [rewrite <- E; apply in_map; eapply nth_error_In; eauto|cbn; lia]. }
  subst k. destruct (raw_list s Ls) as (st3 & l0 & H2 & El & HI & HS & HR & HSh). assert (st3 = st1) by congruence. subst st3.
  unfold resolve_state in E. rewrite <- El in E. destruct (resolve_all g (List.length l0) l0 0) as [l' n'] eqn:ER. injection E as <- ->. cbn in Hin.
  pose proof (resolve_all_group g la _ l0 0 _ eq_refl (sorted_la_sorted _ HS) ER) as HG.
  assert (HRaw : raw s la (Reduce r)).
  { pose proof (resolve_all_spec g l0 0 _ ER (sorted_la_sorted _ HS)) as [F2 _]. destruct (forall2_in_r _ _ _ _ F2 Hin) as ([la' d'] & Hi & [El' Hd]). apply HI. cbn in El', Hd. subst la'. now inversion Hd; subst. }
  pose proof (reduce_term _ _ _ HRaw) as K. assert (Ns : la <> g_start g) by (intros ->; apply K, (wg_start g W)). destruct (path_reach g p A s Ls) as [gamma Hg].
  destruct (HLost gamma la) as (m & Om & Nm & HNP); [exact (raw_offers gamma s la _ Hg K HRaw Logic.I)|]. apply HNP. clear HNP.
  destruct (group la l0) as [|c l] eqn:Eg.
  { exfalso. apply HI in HRaw. assert (Hx : In (mkAct la (Reduce r)) (group la l0)) by (apply group_in; auto). now rewrite Eg in Hx. }
  destruct (group_duel s l0 HI HS HR la c l Ns Eg) as (_ & R1 & R2). rewrite Eg in R1, R2. unfold lost_count in R1. rewrite HG in R1, R2. cbn [fst snd] in R1, R2.
  destruct (group_facts s l0 HI HS HR la Ns) as (F1 & F2 & _). rewrite Eg in F1, F2. cbn [dets map] in F1, F2.
  destruct (champ_run g la (dprec_word la) (dets l) [a_det c] (a_det c)) as [[_ HC] _]; auto.
  { split; [now left|]. intros x [->|[]]. auto. }
  rewrite <- (R2 r) in HC by (apply group_in; auto).
  assert (HB : forall d, raw s la d -> d <> Reduce r -> beats g la (Reduce r) d).
  { intros d Hd N. destruct (HC d) as [|B]; auto; [|contradiction]. change ([a_det c] ++ dets l) with (dets (c :: l)). rewrite <- Eg. now apply (group_raw s l0 HI). }
  destruct m as [X|q].
  - destruct (shift_raw gamma s la X Hg Om) as (t & _ & Rt). destruct (HB (Shift t) Rt) as (i & u & j & v & P1 & P2 & P3); [discriminate|]. exists i, j, u, v. splits; auto.
  - pose proof (reduce_raw_at gamma s la q Hg Om) as Rq. destruct (HB (Reduce q) Rq) as (i & u & j & v & P1 & P2 & P3); [congruence|]. exists i, j, u, v. splits; auto.
Qed.
End Back.
