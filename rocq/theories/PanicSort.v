(** When sorting the actions of a state panics (C36): exactly if two shifts of the same token
    compete and one leads back to the state. *)
From Verif Require Import Base Syntax BaseFacts FrontEnd First States Actions Spec WfGrammar DfsFacts ClosureFacts StatesFacts AutoFacts LalrFacts ActFacts GroupFacts CompFacts FaultSpec FaultDuel FaultAct.
From Coq Require Import Sorting.Permutation.

Lemma sort_panics_iff s : forall l, sort_panics s l = true <-> exists la x y, before l (mkAct la (Shift x)) (mkAct la (Shift y)) /\ (x = s \/ y = s).
Proof.
  induction l as [|a l IH]; cbn [sort_panics].
  - split; [discriminate|]. intros (la & x & y & (u & v & w & E) & _). destruct u; discriminate.
  - rewrite orb_true_iff, IH, existsb_exists. split.
    + intros [(b & Hb & HB)|(la & x & y & HB & HS)]; [|exists la, x, y; split; auto; now apply before_cons].
      unfold borrows in HB. apply andb_true_iff in HB as [HE HB]. apply Nat.eqb_eq in HE. destruct a as [la d], b as [lb d']. cbn in *. subst lb. destruct d; try discriminate. destruct d'; try discriminate.
      apply orb_true_iff in HB. rewrite !Nat.eqb_eq in HB. exists la, s0, s1. split; auto. now apply before_head.
    + intros (la & x & y & (u & v & w & E) & HS). destruct u as [|c u]; cbn in E; injection E as -> ->.
      * left. exists (mkAct la (Shift y)). split; [apply in_app_iff; right; now left|]. unfold borrows. cbn. rewrite Nat.eqb_refl. cbn. apply orb_true_iff. now rewrite !Nat.eqb_eq.
      * right. exists la, x, y. split; auto. now exists u, v, w.
Qed.
Lemma before_perm l l' la x y s : Permutation l l' -> before l (mkAct la (Shift x)) (mkAct la (Shift y)) -> x = s \/ y = s ->
  exists x' y', before l' (mkAct la (Shift x')) (mkAct la (Shift y')) /\ (x' = s \/ y' = s).
Proof.
  intros HP HB HS. destruct (before_in _ _ _ HB) as [I1 I2]. apply (Permutation_in _ HP) in I1, I2. destruct (Nat.eq_dec x y) as [<-|N].
  - exists x, x. split; auto. apply (filter_two (is_shift_to la x)).
    + intros [la' d] H. unfold is_shift_to in H. cbn in H. apply andb_true_iff in H as [Ha Hd]. apply Nat.eqb_eq in Ha. destruct d; try discriminate. apply Nat.eqb_eq in Hd. now subst.
    + apply (filter_before (is_shift_to la x)) in HB; [|unfold is_shift_to; cbn; now rewrite !Nat.eqb_refl..]. apply before_two in HB. now rewrite <- (Permutation_length (filter_perm (is_shift_to la x) _ _ HP)).
  - destruct (two_before _ _ _ I1 I2) as [H|H]; [congruence| |]; [exists x, y|exists y, x]; split; auto. tauto.
Qed.
Lemma sort_panics_perm s l l' : Permutation l l' -> sort_panics s l = sort_panics s l'.
Proof.
  assert (H : forall l l', Permutation l l' -> sort_panics s l = true -> sort_panics s l' = true).
  { clear. intros l l' HP H. apply sort_panics_iff in H as (la & x & y & HB & HS). destruct (before_perm l l' la x y s HP HB HS) as (x' & y' & H1 & H2). apply sort_panics_iff. now exists la, x', y'. }
  intros HP. destruct (sort_panics s l) eqn:E1, (sort_panics s l') eqn:E2; auto; [apply (H _ _ HP) in E1|apply (H _ _ (Permutation_sym HP)) in E2]; congruence.
Qed.

Section Panic.
Context (g : grammar) (W : wf_grammar g) (p : pst) (A : Aut g p).
Lemma path_reaches gamma s : path g p gamma s -> reaches g p gamma s.
Proof. intros H r d. split; intros H0; [eapply lr0_item; eauto|apply (item_lr0 g p A gamma s (r, d)); auto]. Qed.
Lemma any_panics_iff : any_panics (raw_actions g p) = true <-> exists s st, nth_error (raw_actions g p) s = Some st /\ sort_panics s (s_actions st) = true.
Proof.
  unfold any_panics. rewrite existsb_exists. split.
  - intros (s & Hs & H). apply in_seq in Hs. destruct (nth_error (raw_actions g p) s) as [st|] eqn:E; [|apply nth_error_None in E; lia]. rewrite (nth_error_nth _ _ _ E) in H. eauto.
  - intros (s & st & E & H). exists s. rewrite (nth_error_nth _ _ _ E). split; auto. apply in_seq. assert (s < List.length (raw_actions g p)) by (apply nth_error_Some; congruence). lia.
Qed.
Theorem sort_panic_exact : any_panics (raw_actions g p) = true <-> looping_shift g.
Proof.
  rewrite any_panics_iff. split.
  - intros (s & st & Es & H). assert (Ls : s < List.length (p_states p)) by (rewrite <- (raw_length g p); apply nth_error_Some; congruence).
    destruct (raw_list g W p A s Ls) as (st1 & l0 & H2 & El & HI & _ & _ & HSh). assert (st1 = st) by congruence. subst st1.
    rewrite <- (sort_panics_perm s _ _ (ssort_perm action_less (s_actions st))), <- El in H. apply sort_panics_iff in H as (la & x & y & HB & HS).
    destruct (before_in _ _ _ HB) as [I1 I2]. apply HI in I1, I2.
    destruct (path_reach g p A s Ls) as [gamma Hg]. destruct (kind_or g la) as [K|K].
    + exfalso. pose proof (shift_nonterm g W p _ _ _ I1 K) as EA. pose proof (shift_nonterm g W p _ _ _ I2 K) as EB. rewrite (au_fun g p A _ _ _ _ EA EB) in *.
      apply HSh in HB as (X & ms & EX & KX & _). rewrite (edge_same g p A _ _ _ _ EB EX) in K. congruence.
    + destruct (raw_offers g W p A gamma s la _ Hg K I1 Logic.I) as (X & EX & _ & OX). destruct (raw_offers g W p A gamma s la _ Hg K I2 Logic.I) as (Y & EY & _ & OY).
      assert (HD : X <> Y \/ X = Y /\ exists ms, kind_at g X = Some (KMulti ms) /\ 2 <= count_occ Nat.eq_dec ms la).
      { destruct (Nat.eq_dec X Y) as [<-|N]; auto. right. split; auto. rewrite (au_fun g p A _ _ _ _ EY EX) in HB. apply HSh in HB as (Z & ms & EZ & KZ & CZ). rewrite <- (edge_same g p A _ _ _ _ EX EZ) in KZ. eauto. }
      assert (HAl : forall Z, edge g p s Z s -> alike g gamma (gamma ++ [Z])).
      { intros Z EZ. apply (path_alike g p A gamma _ s Hg). apply path_reaches. econstructor; eauto. }
      destruct HS as [->| ->].
      * exists gamma, la, X, Y. splits; auto. tauto.
      * exists gamma, la, Y, X. splits; auto. destruct HD as [N|[<- HD]]; auto.
  - intros (gamma & a & X & Y & OX & OY & HAl & HD). destruct (offers_path g p A gamma a _ OX) as (s & Hg & Ls).
    destruct (raw_list g W p A s Ls) as (st & l0 & H2 & El & HI & _ & _ & HSh). exists s, st. split; auto.
    rewrite <- (sort_panics_perm s _ _ (ssort_perm action_less (s_actions st))), <- El. apply sort_panics_iff.
    destruct (shift_raw g p A gamma s a X Hg OX) as (t & EX & RX). destruct (shift_raw g p A gamma s a Y Hg OY) as (t' & EY & RY).
    assert (t = s).
    { symmetry. apply (au_uniq g p A); auto; [apply (au_edge g p A _ _ _ EX)|]. intros [r d]. rewrite <- (path_reaches gamma s Hg r d), (HAl r d). apply path_reaches. econstructor; eauto. }
    subst t. destruct HD as [N|(ms & KX & CX)].
    + apply HI in RX, RY. destruct (two_before _ _ _ RX RY) as [HB|HB].
      * intros E. injection E as E. subst t'. apply N. eapply (edge_same g p A); eauto.
      * exists a, s, t'. auto.
      * exists a, t', s. auto.
    + exists a, s, s. split; auto. apply HSh. eauto.
Qed.
(** The sort panics or it does not, and nothing else in the step panics. *)
Theorem actions_panic : find_actions g p = GPanic <-> looping_shift g.
Proof.
  rewrite <- sort_panic_exact. unfold find_actions. destruct (any_panics _); [split; auto|]. destruct (forallb _ _); split; discriminate.
Qed.
(** Such a state has a conflict. *)
Lemma looping_conflicting : looping_shift g -> conflicting g.
Proof.
  intros (gamma & a & X & Y & OX & OY & _ & HD). exists gamma, a. destruct (Nat.eq_dec X Y) as [<-|N].
  - right. destruct HD as [HD|(ms & K & C)]; [congruence|]. eauto.
  - left. exists (MShift X), (MShift Y). splits; auto; [congruence|exact Logic.I].
Qed.
End Panic.

(** The second sort, mod.rs 1371, has the same shape.  It never panics: neither conflict
    resolution nor the default reductions make a shift. *)
Definition no_new (a b : action) : Prop := forall x, a_det b = Shift x -> a = b.
Lemma before_back : forall l l', Forall2 no_new l l' -> forall la x y, before l' (mkAct la (Shift x)) (mkAct la (Shift y)) -> before l (mkAct la (Shift x)) (mkAct la (Shift y)).
Proof.
  intros l l' HF la x y (u & v & w & ->). apply Forall2_app_inv_r in HF as (u1 & l1 & _ & HF & ->). inversion HF as [|a b l2 l3 Ha HF1]; subst.
  apply Forall2_app_inv_r in HF1 as (v1 & l4 & _ & HF1 & ->). inversion HF1 as [|c d w1 w2 Hc _]; subst. rewrite (Ha x eq_refl), (Hc y eq_refl). now exists u1, v1, w1.
Qed.
Lemma quiet_back s l l' : Forall2 no_new l l' -> sort_panics s l = false -> sort_panics s l' = false.
Proof.
  intros HF H. destruct (sort_panics s l') eqn:E; auto. apply sort_panics_iff in E as (la & x & y & HB & HS). rewrite <- H. symmetry. apply sort_panics_iff. exists la, x, y. split; auto. eapply before_back; eauto.
Qed.
Lemma default_no_new g ign r : forall l, Forall2 no_new l (make_default g ign r l).
Proof.
  induction l as [|a l IH]; cbn [make_default]; [constructor|]. destruct (negb _ && is_reduce r a) eqn:E.
  - constructor.
    + intros x Hx. exfalso. cbn in Hx. apply andb_true_iff in E as [_ E]. unfold is_reduce in E. now rewrite Hx in E.
    + clear. induction l as [|b l IH]; cbn; constructor; auto. intros x. unfold unuse. destruct (smem _ _); auto. destruct (is_reduce _ _); auto. discriminate.
  - constructor; auto. intros x _. reflexivity.
Qed.
Theorem second_sort_quiet g (W : wf_grammar g) p (A : Aut g p) p3 n s ign r : find_actions g p = GOk (p3, n) -> s < List.length (p_states p) ->
  sort_panics s (make_default g ign r (s_actions (pstate p3 s))) = false.
Proof.
  intros H Ls. destruct (raw_list g W p A s Ls) as (st & l0 & H2 & El & HI & HSo & _ & _). unfold find_actions in H. destruct (any_panics (raw_actions g p)) eqn:EP; [discriminate|]. destruct (forallb _ _); [|discriminate].
  injection H as <- _. assert (HQ : sort_panics s (s_actions st) = false).
  { destruct (sort_panics s (s_actions st)) eqn:E; auto. rewrite <- EP. symmetry. apply any_panics_iff. eauto. }
  rewrite <- (sort_panics_perm s _ _ (ssort_perm action_less (s_actions st))), <- El in HQ.
  unfold pstate. cbn [p_states]. rewrite (nth_error_nth _ s dummy_state (x := fst (resolve_state g st))); [|now rewrite map_map, nth_error_map, H2].
  unfold resolve_state. rewrite <- El. destruct (resolve_all g (List.length l0) l0 0) as [l' n'] eqn:ER. cbn [fst s_actions st_set_actions].
  eapply quiet_back; [apply default_no_new|]. apply (quiet_back s l0); auto.
  destruct (all_hist g (fun _ => True) l0 l0 0 l' n') as (HF & _); auto; [apply became_refl|].
  clear -HF. induction HF as [|a b l l' [_ HB] HF IH]; constructor; auto. intros x Hx. destruct HB as [->|[HB _]]; auto. exfalso. apply HB. now rewrite Hx.
Qed.
