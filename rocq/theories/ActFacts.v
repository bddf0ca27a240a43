(** [find_actions]: the candidate actions of a state and what conflict resolution
    leaves of them. *)
From Coq Require Import Sorted.
From Verif Require Import Base Syntax BaseFacts FrontEnd First States Actions Spec WfGrammar FirstFacts
  ClosureFacts StatesFacts DfsFacts FollowFacts AutoFacts.

(** ** The order on actions *)
Definition drank (d : detail) : nat * nat :=
  match d with Shift x => (0, x) | Accept => (1, 0) | Reduce x => (2, x) | _ => (3, 0) end.

Lemma detail_less_rank a b : detail_less a b = key_less (drank a) (drank b).
Proof. destruct a, b; unfold key_less; simpl; auto; now rewrite ?orb_false_r. Qed.

Lemma action_less_iff a b : action_less a b = true <->
  a_la a < a_la b \/ (a_la a = a_la b /\ key_less (drank (a_det a)) (drank (a_det b)) = true).
Proof.
  unfold action_less. rewrite detail_less_rank, orb_true_iff, andb_true_iff, Nat.ltb_lt, Nat.eqb_eq. tauto.
Qed.
Lemma action_less_false a b : action_less a b = false <->
  a_la b < a_la a \/ (a_la a = a_la b /\ key_less (drank (a_det a)) (drank (a_det b)) = false).
Proof.
  destruct (action_less a b) eqn:E.
  - apply action_less_iff in E. split; [discriminate|]. intros [H|[H1 H2]]; destruct E as [E|[E1 E2]]; try lia. congruence.
  - split; auto. intros _. destruct (lt_eq_lt_dec (a_la a) (a_la b)) as [[H|H]|H]; auto.
    + exfalso. enough (action_less a b = true) by congruence. apply action_less_iff. auto.
    + right. split; auto. destruct (key_less _ _) eqn:K; auto.
      enough (action_less a b = true) by congruence. apply action_less_iff. auto.
Qed.

Lemma key_less_iff a b : key_less a b = true <-> fst a < fst b \/ (fst a = fst b /\ snd a < snd b).
Proof. unfold key_less. rewrite orb_true_iff, andb_true_iff, !Nat.ltb_lt, Nat.eqb_eq. tauto. Qed.
Lemma key_less_false a b : key_less a b = false <-> fst b < fst a \/ (fst a = fst b /\ snd b <= snd a).
Proof.
  destruct (key_less a b) eqn:E.
  - apply key_less_iff in E. split; [discriminate|lia].
  - split; auto. intros _. destruct (lt_eq_lt_dec (fst a) (fst b)) as [[H|H]|H]; auto.
    + exfalso. enough (key_less a b = true) by congruence. apply key_less_iff. auto.
    + right. split; auto. destruct (Nat.lt_ge_cases (snd a) (snd b)); auto.
      exfalso. enough (key_less a b = true) by congruence. apply key_less_iff. auto.
Qed.

Lemma ssort_actions_sorted l : sorted_by action_less (ssort action_less l).
Proof.
  apply ssort_sorted.
  - intros a b H. apply action_less_iff in H. apply action_less_false.
    destruct H as [H|[H1 H2]]; auto. right. split; auto. apply key_less_iff in H2. apply key_less_false. lia.
  - intros a b c H1 H2. apply action_less_false in H1, H2. apply action_less_false.
    rewrite !key_less_false in *. lia.
Qed.

(** Sorted by lookahead only. *)
Definition la_sorted (l : list action) : Prop := StronglySorted (fun a b => a_la a <= a_la b) l.

Lemma sorted_la_sorted l : sorted_by action_less l -> la_sorted l.
Proof.
  unfold sorted_by, la_sorted. induction 1 as [|a l H IH HF]; constructor; auto.
  eapply Forall_impl; [|exact HF]. intros b Hb. simpl in Hb. apply action_less_false in Hb. lia.
Qed.

Lemma la_sorted_map l l' : map a_la l = map a_la l' -> la_sorted l -> la_sorted l'.
Proof.
  revert l'. induction l as [|a l IH]; intros [|b l'] E H; try discriminate; [constructor|].
  simpl in E. injection E as E1 E2. inversion H as [|? ? H2 HF]; subst. constructor; [apply IH; auto|].
  rewrite Forall_forall in *. intros x Hx. apply (in_map a_la) in Hx. rewrite <- E2 in Hx.
  apply in_map_iff in Hx as (y & Hy & Hin). rewrite <- Hy, <- E1. auto.
Qed.

(** ** Conflict resolution *)
Definition live (d : detail) : Prop :=
  match d with Shift _ | Reduce _ | Accept => True | _ => False end.

(** What may happen to an action when no conflict is counted. *)
Inductive dstep : detail -> detail -> Prop :=
| ds_refl d : dstep d d
| ds_sh s : dstep (Shift s) (SHResolved s)
| ds_err s : dstep (Shift s) Error
| ds_rd r : dstep (Reduce r) (RDResolved r).
#[local] Hint Constructors dstep : core.

(** Two actions that cannot both stay. *)
Definition bad (x y : detail) : Prop :=
  match x, y with
  | Shift _, Shift _ | Shift _, Reduce _ | Reduce _, Reduce _ => True
  | _, _ => False
  end.

Lemma dstep_trans a b c : dstep a b -> dstep b c -> dstep a c.
Proof. intros H1 H2. destruct H1; auto; inversion H2; subst; auto. Qed.
Lemma dstep_live a b : dstep a b -> live b -> a = b.
Proof. destruct 1; simpl; auto; contradiction. Qed.
Lemma bad_step x y x' y' : dstep x x' -> dstep y y' -> bad x' y' -> bad x y.
Proof.
  intros H1 H2. destruct H1, H2; simpl; auto;
    repeat match goal with d : detail |- _ => destruct d end; simpl; auto.
Qed.

Lemma resolve_conflict_ok g la x y x' y' : resolve_conflict g la x y = (x', y', false) ->
  dstep x x' /\ dstep y y' /\ ~ bad x' y'.
Proof.
  unfold resolve_conflict. intros H.
  destruct x, y; try (inversion H; subst; simpl; splits; auto; fail).
  - destruct (sy_prec _); [|discriminate]. destruct (r_prec _); [|discriminate]. destruct (precedence_cmp _ _); inversion H; subst; simpl; auto.
  - destruct (r_prec _); [|discriminate]. destruct (r_prec _); [|discriminate]. destruct (precedence_cmp _ _); inversion H; subst; simpl; auto.
Qed.

Definition astep (a a' : action) : Prop := a_la a = a_la a' /\ dstep (a_det a) (a_det a').

Lemma astep_refl a : astep a a. Proof. split; auto. Qed.
Lemma astep_trans a b c : astep a b -> astep b c -> astep a c.
Proof. intros [E1 D1] [E2 D2]. split; [congruence|eapply dstep_trans; eauto]. Qed.
#[local] Hint Resolve astep_refl : core.

Lemma forall2_refl {A} (R : A -> A -> Prop) l : (forall a, R a a) -> Forall2 R l l.
Proof. intros H. induction l; constructor; auto. Qed.
Lemma forall2_trans {A} (R : A -> A -> Prop) l1 : (forall a b c, R a b -> R b c -> R a c) ->
  forall l2 l3, Forall2 R l1 l2 -> Forall2 R l2 l3 -> Forall2 R l1 l3.
Proof.
  intros HT. induction l1; intros l2 l3 H1 H2; inversion H1; subst; inversion H2; subst; constructor; eauto.
Qed.
Lemma forall2_in_r {A B} (R : A -> B -> Prop) l l' b : Forall2 R l l' -> In b l' -> exists a, In a l /\ R a b.
Proof.
  induction 1 as [|x y l l' H HF IH]; intros Hb; [contradiction|]. destruct Hb as [->|Hb].
  - exists x. split; auto. now left.
  - destruct (IH Hb) as (a & ? & ?). exists a. split; auto. now right.
Qed.
Lemma forall2_in_l {A B} (R : A -> B -> Prop) l l' a : Forall2 R l l' -> In a l -> exists b, In b l' /\ R a b.
Proof.
  induction 1 as [|x y l l' H HF IH]; intros Ha; [contradiction|]. destruct Ha as [->|Ha].
  - exists y. split; auto. now left.
  - destruct (IH Ha) as (b & ? & ?). exists b. split; auto. now right.
Qed.

Lemma resolve_against_le g : forall l ap n ap' l' n', resolve_against g ap l n = (ap', l', n') -> n <= n'.
Proof.
  induction l as [|nap l IH]; intros ap n ap' l' n' H; cbn [resolve_against] in H.
  - inversion H; auto.
  - destruct (a_la ap =? a_la nap); [|inversion H; auto].
    destruct (resolve_conflict _ _ _ _) as [[dx dy] e]. destruct (resolve_against g _ l _) as [[ap1 l1] n1] eqn:E.
    apply IH in E. inversion H; subst. destruct e; lia.
Qed.

Lemma resolve_against_spec g : forall l ap n ap' l',
  resolve_against g ap l n = (ap', l', n) -> la_sorted (ap :: l) ->
  astep ap ap' /\ Forall2 astep l l' /\
  (forall b, In b l' -> a_la b = a_la ap -> ~ bad (a_det ap') (a_det b)).
Proof.
  induction l as [|nap l IH]; intros ap n ap' l' H Hs; cbn [resolve_against] in H.
  - inversion H; subst. splits; auto.
  - destruct (Nat.eqb_spec (a_la ap) (a_la nap)) as [He|Hn].
    + destruct (resolve_conflict g (a_la ap) (a_det ap) (a_det nap)) as [[dx dy] e] eqn:Er.
      destruct (resolve_against g (mkAct (a_la ap) dx) l (if e then S n else n)) as [[ap1 l1] n1] eqn:E.
      inversion H; subst ap1 l' n1. clear H. destruct e.
      { apply resolve_against_le in E. lia. }
      apply resolve_conflict_ok in Er as (D1 & D2 & D3).
      apply IH in E as ([A1 A2] & B & C); [|inversion Hs as [|? ? Hs' HF]; subst; inversion Hs'; subst; constructor; auto;
        inversion HF; auto]. simpl in A1, A2, C.
      splits.
      * split; auto. eapply dstep_trans; eauto.
      * constructor; auto. split; auto.
      * intros b [<-|Hb] Hla; [|auto]. simpl. intros Hbad. apply D3.
        eapply bad_step; [exact A2|apply ds_refl|exact Hbad].
    + inversion H; subst. splits; auto using forall2_refl.
      intros b Hb Hla. exfalso. inversion Hs as [|? ? Hs' HF]; subst.
      inversion HF as [|? ? Hle HF']; subst. simpl in Hb. destruct Hb as [<-|Hb]; [congruence|].
      inversion Hs' as [|? ? Hs2 HF2]; subst. rewrite Forall_forall in HF2. specialize (HF2 b Hb). simpl in *. lia.
Qed.

Lemma resolve_all_le g : forall k l n l' n', resolve_all g k l n = (l', n') -> n <= n'.
Proof.
  induction k as [|k IH]; intros l n l' n' H; cbn [resolve_all] in H; [inversion H; auto|].
  destruct l as [|ap l]; [inversion H; auto|].
  destruct (resolve_against g ap l n) as [[ap1 l1] n1] eqn:E1. destruct (resolve_all g k l1 n1) as [l2 n2] eqn:E2.
  apply resolve_against_le in E1. apply IH in E2. inversion H; subst. lia.
Qed.

Definition no_bad (l : list action) : Prop :=
  forall i j a b, i < j -> nth_error l i = Some a -> nth_error l j = Some b -> a_la a = a_la b ->
    ~ bad (a_det a) (a_det b).

Lemma astep_map l l' : Forall2 astep l l' -> map a_la l = map a_la l'.
Proof. induction 1 as [|a b l l' [E _] H IH]; simpl; auto. now rewrite E, IH. Qed.

Lemma resolve_all_spec g : forall l n l',
  resolve_all g (List.length l) l n = (l', n) -> la_sorted l ->
  Forall2 astep l l' /\ no_bad l'.
Proof.
  intros l. remember (List.length l) as k eqn:Hk. revert l Hk.
  induction k as [|k IH]; intros l Hk n l' H Hs; cbn [resolve_all] in H.
  - destruct l; [|discriminate]. inversion H; subst. split; [constructor|].
    intros i j a b Hij Ha. destruct i; discriminate.
  - destruct l as [|ap l]; [discriminate|]. simpl in Hk. injection Hk as Hk.
    destruct (resolve_against g ap l n) as [[ap1 l1] n1] eqn:E1. destruct (resolve_all g k l1 n1) as [l2 n2] eqn:E2.
    inversion H; subst l' n2. clear H.
    pose proof (resolve_against_le _ _ _ _ _ _ _ E1). pose proof (resolve_all_le _ _ _ _ _ _ E2).
    assert (n1 = n) by lia. subst n1.
    apply resolve_against_spec in E1 as (A1 & A2 & A3); auto.
    pose proof (astep_map _ _ A2) as Em. inversion Hs as [|? ? Hs' HF]; subst.
    assert (Hk1 : List.length l = List.length l1) by (rewrite <- (map_length a_la l), Em, map_length; auto).
    apply IH in E2 as (B1 & B2); auto; [|eapply la_sorted_map; eauto].
    split.
    + constructor; auto. eapply forall2_trans; eauto using astep_trans.
    + intros i j a b Hij Ha Hb Hla. destruct j as [|j]; [lia|]. simpl in Hb.
      destruct i as [|i]; simpl in Ha.
      * inversion Ha; subst a. apply nth_error_In in Hb. destruct (forall2_in_r _ _ _ _ B1 Hb) as (b1 & Hb1 & [E D]).
        intros Hbad. apply (A3 b1 Hb1); [destruct A1; congruence|]. eapply bad_step; [apply ds_refl|exact D|exact Hbad].
      * apply (B2 i j a b); auto. lia.
Qed.

(** Without rule precedences no conflict counted means no two candidates on a lookahead. *)
Lemma resolve_against_clean g : (forall r, r_prec (grule g r) = None) -> forall l ap n ap' l',
  resolve_against g ap l n = (ap', l', n) -> la_sorted (ap :: l) ->
  (match a_det ap with Shift _ | Reduce _ => True | _ => False end) ->
  (forall b, In b l -> a_la b = a_la ap -> bad (a_det ap) (a_det b)) ->
  forall b, In b l -> a_la b <> a_la ap.
Proof.
  intros Hp l ap n ap' l' H Hs Hd Hb b Hin He. destruct l as [|nap l]; [contradiction|]. cbn [resolve_against] in H.
  assert (Hla : a_la ap = a_la nap).
  { inversion Hs as [|? ? Hs' HF]; subst. inversion HF as [|? ? Hle HF']; subst. destruct Hin as [->|Hin]; auto.
    inversion Hs' as [|? ? Hs2 HF2]; subst. rewrite Forall_forall in HF2. specialize (HF2 b Hin). simpl in *. lia. }
  rewrite (proj2 (Nat.eqb_eq _ _) Hla) in H.
  assert (Hbad : bad (a_det ap) (a_det nap)) by (apply Hb; [now left|auto]).
  destruct (resolve_conflict g (a_la ap) (a_det ap) (a_det nap)) as [[dx dy] e] eqn:Er.
  destruct (resolve_against g _ l _) as [[ap1 l1] n1] eqn:E. inversion H; subst ap1 l' n1.
  assert (e = true).
  { unfold resolve_conflict in Er. destruct (a_det ap), (a_det nap); simpl in Hbad; try contradiction;
      rewrite ?Hp in Er; try (destruct (sy_prec _)); try (destruct (r_prec _)); inversion Er; auto. }
  subst e. apply resolve_against_le in E. lia.
Qed.

Lemma resolve_all_clean g : (forall r, r_prec (grule g r) = None) -> forall l n l',
  resolve_all g (List.length l) l n = (l', n) -> la_sorted l ->
  (forall i j a b, i < j -> nth_error l i = Some a -> nth_error l j = Some b -> a_la a = a_la b -> bad (a_det a) (a_det b)) ->
  NoDup (map a_la l) /\ l' = l.
Proof.
  intros Hp l. remember (List.length l) as k eqn:Hk. revert l Hk.
  induction k as [|k IH]; intros l Hk n l' H Hs Hb; cbn [resolve_all] in H.
  - destruct l; [|discriminate]. inversion H; subst. split; [constructor|auto].
  - destruct l as [|ap l]; [discriminate|]. simpl in Hk. injection Hk as Hk.
    destruct (resolve_against g ap l n) as [[ap1 l1] n1] eqn:E1. destruct (resolve_all g k l1 n1) as [l2 n2] eqn:E2.
    inversion H; subst l' n2. clear H.
    pose proof (resolve_against_le _ _ _ _ _ _ _ E1). pose proof (resolve_all_le _ _ _ _ _ _ E2).
    assert (n1 = n) by lia. subst n1.
    assert (Hne : forall b, In b l -> a_la b <> a_la ap).
    { intros b Hin He. assert (Hd : bad (a_det ap) (a_det b)).
      { apply In_nth_error in Hin as [j Hj]. apply (Hb 0 (S j)); simpl; auto. lia. }
      revert Hin He. eapply resolve_against_clean; eauto.
      - destruct (a_det ap); simpl in *; auto.
      - intros b' Hin' He'. apply In_nth_error in Hin' as [j Hj]. apply (Hb 0 (S j)); simpl; auto. lia. }
    assert (E1' : ap1 = ap /\ l1 = l).
    { destruct l as [|nap l]; cbn [resolve_against] in E1; [inversion E1; auto|].
      assert (a_la nap <> a_la ap) by (apply Hne; now left).
      destruct (Nat.eqb_spec (a_la ap) (a_la nap)); [congruence|]. inversion E1; auto. }
    destruct E1' as [-> ->]. inversion Hs as [|? ? Hs' HF]; subst.
    apply IH in E2 as (N & ->); auto.
    + split; auto. simpl. constructor; auto. intros Hin. apply in_map_iff in Hin as (b & Hb1 & Hb2). exact (Hne b Hb2 Hb1).
    + intros i j a b Hij Ha Hb' Hla. apply (Hb (S i) (S j)); auto. lia.
Qed.

(** ** The candidate actions *)
(** Terminal [m] is what the right-hand-side symbol [X] stands for (or [X] itself). *)
Definition covers (g : grammar) (X m : nat) : Prop :=
  match kind_at g X with Some (KMulti ms) => In m ms | _ => m = X end.

Section Raw.
Context (g : grammar) (W : wf_grammar g) (p : pst) (A : Aut g p).

Definition rlen (r : nat) : nat := List.length (r_rhs (grule g r)).

Inductive raw (s : nat) : nat -> detail -> Prop :=
| raw_shift X t m : edge g p s X t -> covers g X m -> raw s m (Shift t)
| raw_reduce r b : look p s (r, rlen r) b -> b < g_nterm g -> raw s b (Reduce r)
| raw_accept : s = 0 -> raw s (g_start g) Accept.

Definition acts (p : pst) (s : nat) : list action := s_actions (pstate p s).

Lemma edge_sym s X t : edge g p s X t -> X < List.length (g_syms g) /\ X <> 0 /\ X <> g_dflt g /\ X <> g_start g.
Proof.
  intros E. destruct (au_edge g p A _ _ _ E) as (_ & k & Hi & HX).
  pose proof (au_valid g p A _ _ Hi) as Hv.
  destruct (kpost_in g k X Hv HX) as (ru & Hr & Hin). destruct (rhs_in g W _ _ _ Hr Hin) as (? & ? & ?). splits; auto.
  apply in_map_iff in Hin as ([Y al] & <- & Hin). eapply (au_nostart g p A); eauto.
Qed.

Lemma shift_actions_in X t a : X < List.length (g_syms g) ->
  In a (shift_actions g X t) <-> a_det a = Shift t /\ covers g X (a_la a).
Proof.
  intros HX. unfold shift_actions, covers. rewrite (gsym_kind_at g X HX).
  destruct a as [la d]; simpl. destruct (sy_kind (gsym g X)); simpl.
  - split; [intros [H|[]]; inversion H; auto|]. intros [-> ->]. auto.
  - split; [intros [H|[]]; inversion H; auto|]. intros [-> ->]. auto.
  - rewrite in_map_iff. split.
    + intros (m & H & Hm). inversion H; subst. auto.
    + intros [-> H]. exists la. auto.
Qed.

Lemma acts_of_in lst s : (forall X t, In (X, t) lst <-> edge g p s X t) -> forall la d,
  In (mkAct la d) (acts_of g lst) <-> exists X t, edge g p s X t /\ covers g X la /\ d = Shift t.
Proof.
  intros H la d. unfold acts_of. rewrite in_flat_map. split.
  - intros ([X t] & Hin & Ha). apply H in Hin. apply shift_actions_in in Ha as [E C]; [|apply (edge_sym _ _ _ Hin)].
    simpl in *. eauto.
  - intros (X & t & E & C & ->). exists (X, t). split; [now apply H|]. apply shift_actions_in; simpl; auto.
    apply (edge_sym _ _ _ E).
Qed.

Lemma reduce_actions_in s st : nth_error (p_states p) s = Some st -> forall la d,
  In (mkAct la d) (reduce_actions g (p_cfgs p) st) <-> exists r, look p s (r, rlen r) la /\ la < g_nterm g /\ d = Reduce r.
Proof.
  intros Hs la d. unfold reduce_actions. rewrite in_flat_map. split.
  - intros (c & Hc & Hin). destruct (Nat.eqb_spec (c_dot (cfg (p_cfgs p) c)) (List.length (r_rhs (grule g (c_rule (cfg (p_cfgs p) c)))))) as [E|]; [|contradiction].
    apply in_map_iff in Hin as (j & Hj & Hin). inversion Hj; subst. apply filter_In in Hin as [H1 H2].
    apply in_seq in H1. apply smem_true in H2. exists (c_rule (cfg (p_cfgs p) c)). splits; auto; [|lia].
    exists st, c. splits; auto. unfold ckey, rlen. now rewrite E.
  - intros (r & (st' & c & Hs' & Hc & Hk & Hb) & Hl & ->). rewrite Hs in Hs'. inversion Hs'; subst st'.
    exists c. split; auto. unfold ckey in Hk. inversion Hk as [[K1 K2]]. rewrite K1 in *. unfold rlen in K2. rewrite K2, Nat.eqb_refl.
    apply in_map_iff. exists la. split; auto. apply filter_In. split; [apply in_seq; lia|]. now apply smem_true.
Qed.

Definition is_red (a : action) : bool := match a_det a with Reduce _ => true | _ => false end.

Lemma reduce_actions_nodup s st : nth_error (p_states p) s = Some st -> NoDup (reduce_actions g (p_cfgs p) st).
Proof.
  intros Hs. pose proof (au_keys g p A s st Hs) as HK. unfold reduce_actions. induction (s_configs st) as [|c l IH]; simpl; [constructor|].
  simpl in HK. inversion HK as [|? ? HN HK']; subst. apply nodup_app_iff. splits; auto.
  - destruct (_ =? _); [|constructor]. apply FinFun.Injective_map_NoDup; [intros x y E; congruence|]. apply NoDup_filter, seq_NoDup.
  - intros a Ha Hb. destruct (Nat.eqb_spec (c_dot (cfg (p_cfgs p) c)) (List.length (r_rhs (grule g (c_rule (cfg (p_cfgs p) c)))))) as [E|]; [|contradiction].
    apply in_map_iff in Ha as (j & <- & _). apply in_flat_map in Hb as (c' & Hc' & Hin).
    destruct (Nat.eqb_spec (c_dot (cfg (p_cfgs p) c')) (List.length (r_rhs (grule g (c_rule (cfg (p_cfgs p) c')))))) as [E'|]; [|contradiction].
    apply in_map_iff in Hin as (j' & Hj & _). inversion Hj as [[H1 H2]]. apply HN. apply in_map_iff. exists c'. split; auto.
    unfold ckey. rewrite E, E', H2. reflexivity.
Qed.

Lemma covers_not_start s X t m : edge g p s X t -> covers g X m -> m <> g_start g.
Proof.
  intros E C ->. destruct (edge_sym _ _ _ E) as (H1 & H2 & H3 & H4). unfold covers in C.
  destruct (kind_at g X) as [[| |ms]|] eqn:K; try congruence.
  destruct (wg_multi g W X ms _ K C) as (_ & _ & Hk). destruct (wg_start g W). congruence.
Qed.

Lemma nonterm_ge X : kind_at g X = Some KNonTerm -> g_nterm g <= X <= g_dflt g.
Proof. apply (wg_nonterm g W). Qed.

Lemma raw_actions_spec s st1 : nth_error (raw_actions g p) s = Some st1 ->
  exists st, nth_error (p_states p) s = Some st /\ s_configs st1 = s_configs st /\ s_basis st1 = s_basis st /\
    (forall la d, In (mkAct la d) (s_actions st1) <-> raw s la d) /\
    exists l1, s_actions st1 = l1 ++ (if s =? 0 then [mkAct (g_start g) Accept] else []) /\
      Forall (fun a => a_la a <> g_start g /\ match a_det a with Shift _ | Reduce _ => True | _ => False end) l1 /\
      NoDup (filter is_red l1).
Proof.
  unfold raw_actions. rewrite nth_error_upd, nth_error_map. intros H.
  destruct (nth_error (p_states p) s) as [st|] eqn:Hs; [|destruct (0 =? s); discriminate].
  cbn [option_map] in H. exists st.
  destruct (au_acts g p A s st Hs) as (lst & L1 & L2 & L3).
  assert (HI : forall la d, In (mkAct la d) (s_actions st ++ reduce_actions g (p_cfgs p) st) <->
     (raw s la d /\ d <> Accept)).
  { intros la d. rewrite in_app_iff, L1, (acts_of_in lst s L3), (reduce_actions_in s st Hs). split.
    - intros [(X & t & E & C & ->)|(r & Hl & Hb & ->)]; split; try discriminate; [eapply raw_shift; eauto|now apply raw_reduce].
    - intros [R Hd]. inversion R; subst; [left|right|congruence]; eauto. }
  assert (HF : Forall (fun a => a_la a <> g_start g /\ match a_det a with Shift _ | Reduce _ => True | _ => False end)
     (s_actions st ++ reduce_actions g (p_cfgs p) st)).
  { rewrite Forall_forall. intros [la d] Hin. apply HI in Hin as [R Hd]. simpl. inversion R; subst; split; auto; try congruence.
    - eapply covers_not_start; eauto.
    - pose proof (nonterm_ge _ (proj1 (wg_start g W))). lia. }
  assert (HND : NoDup (filter is_red (s_actions st ++ reduce_actions g (p_cfgs p) st))).
  { rewrite filter_app. replace (filter is_red (s_actions st)) with (@nil action).
    - apply NoDup_filter, (reduce_actions_nodup s st Hs).
    - symmetry. rewrite L1. unfold acts_of. clear. induction lst as [|[X t] lst IH]; auto. simpl. rewrite filter_app, IH, app_nil_r.
      unfold shift_actions. destruct (sy_kind _) as [| |ms]; auto. induction ms; auto. }
  destruct (Nat.eqb_spec 0 s) as [<-|Hn].
  - inversion H; subst st1. simpl. splits; auto.
    + intros la d. rewrite in_app_iff, HI. simpl. split.
      * intros [[? _]|[E|[]]]; auto. inversion E; subst. now apply raw_accept.
      * intros R. destruct R; [left; split; [eapply raw_shift; eauto|discriminate]|left; split; [now apply raw_reduce|discriminate]|auto].
    + eexists. split; [reflexivity|split; [exact HF|exact HND]].
  - inversion H; subst st1. simpl. splits; auto.
    + intros la d. rewrite HI. split; [tauto|]. intros R. split; auto. intros ->. inversion R. congruence.
    + destruct (Nat.eqb_spec s 0); [congruence|]. eexists. rewrite app_nil_r. split; [reflexivity|split; [exact HF|exact HND]].
Qed.

(** At most one element in front of which everything else fails [P]. *)
Lemma perm_single {T} (P : T -> Prop) l x l1 : Permutation.Permutation l (x :: l1) -> Forall (fun a => ~ P a) l1 ->
  forall i j a b, i < j -> nth_error l i = Some a -> nth_error l j = Some b -> P a -> P b -> False.
Proof.
  intros HP HF i j a b Hij Ha Hb Pa Pb.
  assert (Hx : In x l) by (eapply Permutation.Permutation_in; [apply Permutation.Permutation_sym, HP|now left]).
  apply in_split in Hx as (u & v & ->).
  assert (HP' : Permutation.Permutation (u ++ v) l1).
  { eapply Permutation.Permutation_cons_inv. etransitivity; [apply Permutation.Permutation_middle|exact HP]. }
  assert (HN : forall c, In c (u ++ v) -> ~ P c).
  { intros c Hc. rewrite Forall_forall in HF. apply HF. eapply Permutation.Permutation_in; eauto. }
  assert (Hpos : forall k c, nth_error (u ++ x :: v) k = Some c -> P c -> k = List.length u).
  { intros k c Hk Pc. destruct (lt_eq_lt_dec k (List.length u)) as [[Hl|Hl]|Hl]; auto; exfalso; apply (HN c); auto; apply in_or_app.
    - left. rewrite nth_error_app1 in Hk by auto. eapply nth_error_In; eauto.
    - right. rewrite nth_error_app2 in Hk by lia. destruct (k - List.length u) as [|n] eqn:E; [lia|]. simpl in Hk. eapply nth_error_In; eauto. }
  pose proof (Hpos _ _ Ha Pa). pose proof (Hpos _ _ Hb Pb). lia.
Qed.

Lemma fold_sum_zero {T} (f : T -> nat) l : forall n, fold_left (fun n x => n + f x) l n = 0 -> n = 0 /\ forall x, In x l -> f x = 0.
Proof.
  induction l as [|a l IH]; simpl; intros n H; [split; auto; contradiction|].
  apply IH in H as [H1 H2]. split; [lia|]. intros x [<-|Hx]; auto. lia.
Qed.

Lemma forall2_nth {T U} (R : T -> U -> Prop) l l' : Forall2 R l l' -> forall i b, nth_error l' i = Some b ->
  exists a, nth_error l i = Some a /\ R a b.
Proof. induction 1; intros [|i] c Hc; try discriminate; simpl in *; eauto. inversion Hc; subst. eauto. Qed.

Lemma filter_perm {T} (f : T -> bool) l l' : Permutation.Permutation l l' -> Permutation.Permutation (filter f l) (filter f l').
Proof.
  induction 1; simpl; auto.
  - destruct (f x); auto.
  - destruct (f x), (f y); auto. apply Permutation.perm_swap.
  - etransitivity; eauto.
Qed.

(** What [find_actions] leaves in state [s] when no conflict was counted. *)
Record settled (p3 : pst) (s : nat) : Prop := {
  se_src : exists l0, sorted_by action_less l0 /\ Forall2 astep l0 (acts p3 s) /\
    (forall la d, In (mkAct la d) l0 <-> raw s la d);
  se_nobad : no_bad (acts p3 s);
  se_accept : forall i j a b, i < j -> nth_error (acts p3 s) i = Some a -> nth_error (acts p3 s) j = Some b ->
    a_la a = g_start g -> a_la b = g_start g -> False;
  se_clean : (forall r, r_prec (grule g r) = None) ->
    NoDup (map a_la (acts p3 s)) /\ (forall la d, In (mkAct la d) (acts p3 s) <-> raw s la d);
  se_run : exists l0, sorted_by action_less l0 /\ (forall la d, In (mkAct la d) l0 <-> raw s la d) /\
    NoDup (filter is_red l0) /\ resolve_all g (List.length l0) l0 0 = (acts p3 s, 0) }.

Theorem find_actions_spec p3 : find_actions g p = GOk (p3, 0) ->
  p_cfgs p3 = p_cfgs p /\ List.length (p_states p3) = List.length (p_states p) /\
  (forall s, s < List.length (p_states p) -> settled p3 s /\ s_configs (pstate p3 s) = s_configs (pstate p s)) /\
  (forall r, r < List.length (g_rules g) -> exists s la, s < List.length (p_states p) /\ In (mkAct la (Reduce r)) (acts p3 s)).
Proof.
  unfold find_actions. destruct (any_panics _); [discriminate|]. destruct (forallb _ _) eqn:Ef; [|discriminate].
  intros H. injection H as Hp Hn. subst p3. cbn [p_cfgs p_states].
  apply fold_sum_zero in Hn as [_ Hn].
  assert (Hlen : List.length (raw_actions g p) = List.length (p_states p)).
  { unfold raw_actions. now rewrite upd_length, map_length. }
  splits; auto.
  - now rewrite !map_length.
  - intros s Hs.
    destruct (nth_error (raw_actions g p) s) as [st1|] eqn:E1; [|apply nth_error_None in E1; lia].
    pose proof (raw_actions_spec s st1 E1) as (st & Es & Ec & Eb & HI & l1 & El1 & HF & HND).
    destruct (resolve_state g st1) as [st3 n3] eqn:E3.
    assert (n3 = 0).
    { change n3 with (snd (st3, n3)). apply Hn. apply in_map_iff. exists st1. split; [exact E3|].
      eapply nth_error_In; eauto. }
    subst n3.
    set (p3 := {| p_cfgs := p_cfgs p; p_states := map fst (map (resolve_state g) (raw_actions g p)) |}).
    assert (Hst3 : pstate p3 s = st3).
    { unfold pstate, p3. cbn [p_states]. erewrite nth_error_nth; [reflexivity|].
      rewrite map_map, nth_error_map, E1. cbn [option_map]. now rewrite E3. }
    assert (Hst : pstate p s = st) by (unfold pstate; eapply nth_error_nth; eauto).
    unfold resolve_state in E3.
    set (l := ssort action_less (s_actions st1)) in *.
    destruct (resolve_all g (List.length l) l 0) as [l' n'] eqn:Er. injection E3 as E3 En. subst n'. rewrite <- E3 in Hst3. clear E3 st3.
    assert (Hsort : sorted_by action_less l) by apply ssort_actions_sorted.
    assert (Hperm : Permutation.Permutation l (s_actions st1)) by apply ssort_perm.
    assert (Hin : forall la d, In (mkAct la d) l <-> raw s la d) by (intros; unfold l; rewrite ssort_in; apply HI).
    pose proof (resolve_all_spec g l 0 l' Er (sorted_la_sorted _ Hsort)) as [F2 NB].
    assert (Hacc : forall i j a b, i < j -> nth_error l i = Some a -> nth_error l j = Some b ->
       a_la a = g_start g -> a_la b = g_start g -> False).
    { intros i j a b Hij Ha Hb La Lb. rewrite El1 in Hperm. destruct (s =? 0).
      - eapply (perm_single (fun a => a_la a = g_start g)); [etransitivity; [exact Hperm|symmetry; apply Permutation.Permutation_cons_append]| |exact Hij|exact Ha|exact Hb|auto|auto].
        eapply Forall_impl; [|exact HF]. simpl. tauto.
      - rewrite app_nil_r in Hperm. apply nth_error_In in Ha. rewrite Forall_forall in HF.
        destruct (HF a) as [? _]; [eapply Permutation.Permutation_in; eauto|congruence]. }
    split.
    2:{ rewrite Hst3, Hst. simpl. auto. }
    constructor; unfold acts; rewrite Hst3; cbn [s_actions st_set_actions].
    + exists l. auto.
    + exact NB.
    + intros i j a b Hij Ha Hb La Lb.
      destruct (forall2_nth _ _ _ F2 _ _ Ha) as (a0 & Ha0 & [Ea _]), (forall2_nth _ _ _ F2 _ _ Hb) as (b0 & Hb0 & [Eb0 _]).
      apply (Hacc i j a0 b0); auto; congruence.
    + intros Hp. destruct (resolve_all_clean g Hp l 0 l' Er (sorted_la_sorted _ Hsort)) as [ND ->].
      { intros i j a b Hij Ha Hb Hla.
        assert (La : a_la a <> g_start g).
        { intros La. apply (Hacc i j a b); auto. congruence. }
        assert (Ra : raw s (a_la a) (a_det a)) by (apply Hin; destruct a; eapply nth_error_In; eauto).
        assert (Rb : raw s (a_la b) (a_det b)) by (apply Hin; destruct b; eapply nth_error_In; eauto).
        assert (Hrk : action_less b a = false).
        { clear -Hsort Hij Ha Hb. unfold sorted_by in Hsort. revert i j Hij Ha Hb.
          induction Hsort as [|x l H IH HF]; intros i j Hij Ha Hb; [destruct i; discriminate|].
          destruct j as [|j]; [lia|]. simpl in Hb. destruct i as [|i]; simpl in Ha.
          - inversion Ha; subst x. rewrite Forall_forall in HF. apply HF. eapply nth_error_In; eauto.
          - eapply (IH i j); eauto. lia. }
        apply action_less_false in Hrk. destruct Hrk as [Hrk|[_ Hrk]]; [lia|].
        destruct (a_det a), (a_det b); simpl; auto; inversion Ra; inversion Rb; subst; try congruence; discriminate. }
      split; auto.
    + exists l. splits; auto. apply (Permutation.Permutation_NoDup (l := filter is_red (s_actions st1))).
      * apply filter_perm. now apply Permutation.Permutation_sym.
      * rewrite El1, filter_app. replace (filter is_red (if s =? 0 then [mkAct (g_start g) Accept] else [])) with (@nil action) by (destruct (s =? 0); auto).
        now rewrite app_nil_r.
  - intros r Hr. rewrite forallb_forall in Ef. specialize (Ef r). rewrite in_seq in Ef.
    specialize (Ef ltac:(lia)). apply existsb_exists in Ef as (st3 & Hst3 & Hex).
    apply existsb_exists in Hex as (a & Ha & Hred). apply In_nth_error in Hst3 as [s Hs].
    unfold is_reduce in Hred. destruct a as [la d]. simpl in Hred. destruct d; try discriminate.
    apply Nat.eqb_eq in Hred. subst. exists s, la.
    assert (Hl : s < List.length (map fst (map (resolve_state g) (raw_actions g p)))) by (apply nth_error_Some; congruence).
    rewrite !map_length, Hlen in Hl. split; auto. unfold acts, pstate. cbn [p_states].
    now rewrite (nth_error_nth _ _ _ Hs).
Qed.

(** A live action that stayed was a candidate. *)
Lemma settled_raw p3 s la d : settled p3 s -> In (mkAct la d) (acts p3 s) -> live d -> raw s la d.
Proof.
  intros [(l0 & S1 & F2 & HI) _ _ _ _] Hin Hl. destruct (forall2_in_r _ _ _ _ F2 Hin) as ([la0 d0] & H0 & [E D]).
  simpl in *. subst la0. rewrite (dstep_live _ _ D Hl) in H0. now apply HI.
Qed.
End Raw.
