(** The depth-first construction of the states. *)
From Verif Require Import Base Syntax BaseFacts FrontEnd First States Spec WfGrammar FirstFacts
  ClosureFacts StatesFacts.

#[global] Arguments ckey _ _ : simpl never.
#[global] Arguments cfg _ _ : simpl never.

Section Dfs.
Context (g : grammar) (fi : firsts) (W : wf_grammar g) (F : fi_ok g fi).

(** What the closure of a state guarantees.  [st0] says whether this is state 0. *)
Record SI (cs : list config) (st0 : bool) (L B : list nat) : Prop := {
  si_basis : incl B L;
  si_keys : NoDup (map (ckey cs) L);
  si_valid : forall c, In c L -> kvalid g (ckey cs c);
  si_reach : forall c, In c L -> clo_reach g (fun k => In k (map (ckey cs) B)) (ckey cs c);
  si_dot : forall c, In c L -> ~ In c B -> c_dot (cfg cs c) = 0;
  si_proc : forall c, In c L -> processed g L cs c;
  si_fws : forall c b, In c L -> In b (c_fws (cfg cs c)) ->
    (st0 = true /\ In c B /\ b = 0) \/
    (exists c1, In c1 L /\ kstep g (ckey cs c1) (ckey cs c) /\ first_all g b (krest g (ckey cs c1)));
  si_start : st0 = true -> forall c, In c B -> In 0 (c_fws (cfg cs c));
  si_fplp : forall c j, In c L -> In j (c_fplp (cfg cs c)) ->
    In j L /\ kstep g (ckey cs c) (ckey cs j) /\ nullable_all g (krest g (ckey cs c)) }.

(** The basis [B] is the set of items of [L] with the dot before [X], advanced. *)
Definition goto_keys (cs : list config) (L : list nat) (X : nat) (B : list nat) : Prop :=
  forall k, In k (map (ckey cs) B) <->
    exists c, In c L /\ kpost g (ckey cs c) = Some X /\ k = kadv (ckey cs c).

Definition has_post (cs : list config) (L : list nat) (X : nat) : Prop :=
  exists c, In c L /\ kpost g (ckey cs c) = Some X.

Definition start_keys (K : list key) : Prop :=
  forall k, In k K <-> exists r, In r (rules_of g (g_start g)) /\ k = (r, 0).

Record Inv (p : pst) : Prop := {
  iv_nodup : NoDup (all_configs p);
  iv_range : forall i, In i (all_configs p) -> i < List.length (p_cfgs p);
  iv_si : forall s st, nth_error (p_states p) s = Some st ->
    SI (p_cfgs p) (s =? 0) (s_configs st) (s_basis st);
  iv_bplp : forall s st c j, nth_error (p_states p) s = Some st -> In c (s_configs st) ->
    In j (c_bplp (cfg (p_cfgs p) c)) ->
    In c (s_basis st) /\ exists s' st' X, nth_error (p_states p) s' = Some st' /\
      In j (s_configs st') /\ kpost g (ckey (p_cfgs p) j) = Some X /\
      ckey (p_cfgs p) c = kadv (ckey (p_cfgs p) j) /\
      goto_keys (p_cfgs p) (s_configs st') X (s_basis st);
  iv_pred : forall s st, nth_error (p_states p) s = Some st ->
    (s = 0 /\ start_keys (map (ckey (p_cfgs p)) (s_basis st))) \/
    (exists s' st' X, s' < s /\ nth_error (p_states p) s' = Some st' /\
       has_post (p_cfgs p) (s_configs st') X /\
       goto_keys (p_cfgs p) (s_configs st') X (s_basis st));
  iv_uniq : forall s1 st1 s2 st2, nth_error (p_states p) s1 = Some st1 ->
    nth_error (p_states p) s2 = Some st2 ->
    map (ckey (p_cfgs p)) (s_basis st1) = map (ckey (p_cfgs p)) (s_basis st2) -> s1 = s2;
  iv_sorted : forall s st, nth_error (p_states p) s = Some st ->
    sorted_by key_less (map (ckey (p_cfgs p)) (s_basis st)) /\ NoDup (map (ckey (p_cfgs p)) (s_basis st)) }.

(** The shift/goto actions of a finished state and the back links they left. *)
Definition links (p : pst) (L : list nat) (lst : list (nat * nat)) : Prop :=
  forall X t, In (X, t) lst -> exists st', nth_error (p_states p) t = Some st' /\
    goto_keys (p_cfgs p) L X (s_basis st') /\
    forall c, In c L -> kpost g (ckey (p_cfgs p) c) = Some X ->
      exists c', In c' (s_basis st') /\ ckey (p_cfgs p) c' = kadv (ckey (p_cfgs p) c) /\
        In c (c_bplp (cfg (p_cfgs p) c')).

Definition acts_of (lst : list (nat * nat)) : list action :=
  flat_map (fun Xt => shift_actions g (fst Xt) (snd Xt)) lst.

Definition done (p : pst) (s : nat) : Prop :=
  exists st lst, nth_error (p_states p) s = Some st /\ s_actions st = acts_of lst /\
    NoDup (map fst lst) /\
    (forall X, In X (map fst lst) <-> has_post (p_cfgs p) (s_configs st) X) /\
    links p (s_configs st) lst.

(** How the arenas may evolve; [K] are the items whose [complete] flag is kept. *)
Record ext (K : nat -> Prop) (p p' : pst) : Prop := {
  ex_states : exists l, p_states p' = p_states p ++ l;
  ex_grow : cgrow (p_cfgs p) (p_cfgs p');
  ex_fws : forall i, In i (all_configs p) -> c_fws (cfg (p_cfgs p') i) = c_fws (cfg (p_cfgs p) i);
  ex_fplp : forall i, In i (all_configs p) -> c_fplp (cfg (p_cfgs p') i) = c_fplp (cfg (p_cfgs p) i);
  ex_complete : forall i, In i (all_configs p) -> K i ->
    c_complete (cfg (p_cfgs p') i) = c_complete (cfg (p_cfgs p) i) }.

Lemma ex_nth K p p' s st : ext K p p' -> nth_error (p_states p) s = Some st ->
  nth_error (p_states p') s = Some st.
Proof.
  intros E H. destruct (ex_states _ _ _ E) as [l ->]. rewrite nth_error_app1; auto.
  apply nth_error_Some. congruence.
Qed.

Lemma own_in p s st c : In c (s_configs st) -> nth_error (p_states p) s = Some st -> In c (all_configs p).
Proof. intros Hc H. apply in_flat_map. exists st. split; auto. eapply nth_error_In; eauto. Qed.

Lemma ex_all K p p' i : ext K p p' -> In i (all_configs p) -> In i (all_configs p').
Proof.
  intros E H. destruct (ex_states _ _ _ E) as [l Hl]. unfold all_configs in *. rewrite Hl, flat_map_app.
  apply in_or_app. now left.
Qed.

Lemma ext_refl K p : ext K p p.
Proof. constructor; auto using cgrow_refl. exists []. now rewrite app_nil_r. Qed.

Lemma ext_trans K p q r : ext K p q -> ext K q r -> ext K p r.
Proof.
  intros E1 E2. constructor.
  - destruct (ex_states _ _ _ E1) as [l1 H1], (ex_states _ _ _ E2) as [l2 H2].
    exists (l1 ++ l2). rewrite H2, H1. now rewrite app_assoc.
  - eapply cgrow_trans; [apply E1|apply E2].
  - intros i Hi. rewrite (ex_fws _ _ _ E2), (ex_fws _ _ _ E1); eauto using ex_all.
  - intros i Hi. rewrite (ex_fplp _ _ _ E2), (ex_fplp _ _ _ E1); eauto using ex_all.
  - intros i Hi HK. rewrite (ex_complete _ _ _ E2), (ex_complete _ _ _ E1); eauto using ex_all.
Qed.

Lemma ext_weaken (K K' : nat -> Prop) p q : (forall i, In i (all_configs p) -> K' i -> K i) -> ext K p q -> ext K' p q.
Proof. intros H [E1 E2 E3 E4 E5]. constructor; auto. Qed.

Lemma ex_key K p p' i : Inv p -> ext K p p' -> In i (all_configs p) ->
  ckey (p_cfgs p') i = ckey (p_cfgs p) i.
Proof. intros I E H. apply (cg_key _ _ (ex_grow _ _ _ E)). now apply (iv_range _ I). Qed.

Lemma ex_len K p p' : ext K p p' -> List.length (p_states p) <= List.length (p_states p').
Proof. intros E. destruct (ex_states _ _ _ E) as [l ->]. rewrite app_length. lia. Qed.

Lemma goto_keys_ext K p p' s st X B : Inv p -> ext K p p' ->
  nth_error (p_states p) s = Some st -> (forall b, In b B -> In b (all_configs p)) ->
  goto_keys (p_cfgs p) (s_configs st) X B -> goto_keys (p_cfgs p') (s_configs st) X B.
Proof.
  intros I E Hs HB G k.
  rewrite (map_ext_in (ckey (p_cfgs p')) (ckey (p_cfgs p))) by (intros; eapply ex_key; eauto).
  rewrite (G k). split; intros (c & H1 & H2 & H3); exists c.
  - rewrite (ex_key _ _ _ c I E) by (eapply own_in; eauto). auto.
  - rewrite (ex_key _ _ _ c I E) in * by (eapply own_in; eauto). auto.
Qed.

Lemma has_post_ext K p p' s st X : Inv p -> ext K p p' ->
  nth_error (p_states p) s = Some st ->
  has_post (p_cfgs p) (s_configs st) X <-> has_post (p_cfgs p') (s_configs st) X.
Proof.
  intros I E Hs. split; intros (c & H1 & H2); exists c; split; auto.
  - rewrite (ex_key _ _ _ c I E); auto. eapply own_in; eauto.
  - rewrite (ex_key _ _ _ c I E) in H2; auto. eapply own_in; eauto.
Qed.

Lemma basis_own p s st c : Inv p -> In c (s_basis st) -> nth_error (p_states p) s = Some st ->
  In c (all_configs p).
Proof. intros I Hc H. eapply own_in; eauto. apply (si_basis _ _ _ _ (iv_si _ I _ _ H)). auto. Qed.

Lemma links_ext K p p' s st lst : Inv p -> ext K p p' -> nth_error (p_states p) s = Some st ->
  links p (s_configs st) lst -> links p' (s_configs st) lst.
Proof.
  intros I E Hs Hl X t Hin. destruct (Hl X t Hin) as (st' & H1 & H2 & H3). exists st'.
  split; [eapply ex_nth; eauto|]. split.
  - eapply goto_keys_ext; eauto. intros b Hb. eapply basis_own; eauto.
  - intros c Hc. rewrite (ex_key _ _ _ c I E) by exact (own_in _ _ _ _ Hc Hs). intros HX.
    destruct (H3 c Hc HX) as (c' & Hc1 & Hc2 & Hc3). exists c'.
    assert (Ho : In c' (all_configs p)) by (eapply basis_own; eauto).
    splits; auto.
    + rewrite (ex_key _ _ _ c' I E); auto.
    + apply (cg_bplp _ _ (ex_grow _ _ _ E)); auto. now apply (iv_range _ I).
Qed.

Lemma done_ext K p p' s : Inv p -> ext K p p' -> done p s -> done p' s.
Proof.
  intros I E (st & lst & H1 & H2 & H3 & H4 & H5). exists st, lst.
  split; [eapply ex_nth; eauto|]. splits; auto.
  - intros X. rewrite H4. eapply has_post_ext; eauto.
  - eapply links_ext; eauto.
Qed.

(** [SI] only depends on keys, follow sets and forward links of the items of the state. *)
Lemma SI_same cs cs' b L B : 
  (forall i, In i L -> ckey cs' i = ckey cs i /\ c_fws (cfg cs' i) = c_fws (cfg cs i) /\
                       c_fplp (cfg cs' i) = c_fplp (cfg cs i)) ->
  SI cs b L B -> SI cs' b L B.
Proof.
  intros H [S1 S2 S3 S4 S5 S6 S7 S8 S9].
  assert (Hk : forall i, In i L -> ckey cs' i = ckey cs i) by (intros; now apply H).
  assert (HB : map (ckey cs') B = map (ckey cs) B) by (apply map_ext_in; auto).
  constructor; auto.
  - rewrite (map_ext_in _ (ckey cs)); auto.
  - intros c Hc. rewrite Hk; auto.
  - intros c Hc. rewrite Hk, HB; auto.
  - intros c Hc Hn. pose proof (f_equal snd (Hk c Hc)) as E. unfold ckey in E. simpl in E. rewrite E. auto.
  - intros c Hc X. rewrite Hk by auto. intros HX HN.
    destruct (S6 c Hc X HX HN) as [P1 P2]. split; auto. intros q Hq.
    destruct (P2 q Hq) as (c' & Q1 & Q2 & Q3 & Q4). exists c'.
    destruct (H c' Q1) as (E1 & E2 & E3). destruct (H c Hc) as (E1' & E2' & E3').
    rewrite E1, E2, E3'. auto.
  - intros c b' Hc. destruct (H c Hc) as (E1 & E2 & E3). rewrite E2, E1. intros Hb.
    destruct (S7 c b' Hc Hb) as [?|(c1 & Q1 & Q2 & Q3)]; auto.
    right. exists c1. rewrite (Hk c1) by auto. auto.
  - intros Hb c Hc. destruct (H c (S1 _ Hc)) as (E1 & E2 & E3). rewrite E2. auto.
  - intros c j Hc. destruct (H c Hc) as (E1 & E2 & E3). rewrite E3, E1. intros Hj.
    destruct (S9 c j Hc Hj) as (Q1 & Q2 & Q3). rewrite Hk; auto.
Qed.

Lemma clo_reach_mono (B B' : key -> Prop) k : (forall k, B k -> B' k) -> clo_reach g B k -> clo_reach g B' k.
Proof. intros H. induction 1; [apply cr_base; auto|eapply cr_step; eauto]. Qed.

(** ** [get_state] *)

(** Where the candidate basis [cur] comes from. *)
Definition cur_src (p : pst) (cur : list nat) : Prop :=
  let cs := p_cfgs p in
  (p_states p = [] /\ start_keys (map (ckey cs) cur) /\
   forall c, In c cur -> c_bplp (cfg cs c) = [] /\ c_fws (cfg cs c) = [0]) \/
  (exists s st X, nth_error (p_states p) s = Some st /\ has_post cs (s_configs st) X /\
     (forall k, In k (map (ckey cs) cur) <->
        exists c, In c (s_configs st) /\ kpost g (ckey cs c) = Some X /\ k = kadv (ckey cs c)) /\
     forall c, In c cur -> c_fws (cfg cs c) = [] /\
       forall j, In j (c_bplp (cfg cs c)) ->
         In j (s_configs st) /\ kpost g (ckey cs j) = Some X /\ ckey cs c = kadv (ckey cs j)).

Record getpre (cur : list nat) (p : pst) : Prop := {
  gp_inv : Inv p;
  gp_cur : forall c, In c cur -> c < List.length (p_cfgs p) /\ ~ In c (all_configs p) /\
    kvalid g (ckey (p_cfgs p) c) /\ c_fplp (cfg (p_cfgs p) c) = [];
  gp_keys : NoDup (map (ckey (p_cfgs p)) cur);
  gp_src : cur_src p cur }.

Record getpost (cur : list nat) (p : pst) (t : nat) (p' : pst) : Prop := {
  go_inv : Inv p';
  go_ext : ext (fun _ => True) p p';
  go_done : forall s, List.length (p_states p) <= s < List.length (p_states p') -> done p' s;
  go_first : p_states p = [] -> t = 0;
  go_state : exists st, nth_error (p_states p') t = Some st /\
    (forall k, In k (map (ckey (p_cfgs p')) (s_basis st)) <-> In k (map (ckey (p_cfgs p)) cur)) /\
    forall c, In c cur -> exists c', In c' (s_basis st) /\
      ckey (p_cfgs p') c' = ckey (p_cfgs p) c /\
      incl (c_bplp (cfg (p_cfgs p) c)) (c_bplp (cfg (p_cfgs p') c')) }.

Lemma nth_error_last {A} (l : list A) x i y : nth_error (l ++ [x]) i = Some y ->
  nth_error l i = Some y \/ (i = List.length l /\ y = x).
Proof.
  intros H. destruct (Nat.lt_ge_cases i (List.length l)) as [Hl|Hl].
  - rewrite nth_error_app1 in H by auto. auto.
  - rewrite nth_error_app2 in H by auto. right.
    destruct (i - List.length l) as [|k] eqn:E; simpl in H; [inversion H; split; auto; lia|].
    destruct k; discriminate.
Qed.

(** The state already exists *)
Lemma get_found cur p t :
  getpre cur p ->
  state_find p (ssort (config_less (p_cfgs p)) cur) = Some t ->
  getpost cur p t (mkPst (merge_bplp (p_cfgs p) (ssort (config_less (p_cfgs p)) cur)
                            (s_basis (pstate p t))) (p_states p)).
Proof.
  intros [I Hc Hk Hs] Hf. set (bp := ssort (config_less (p_cfgs p)) cur) in *.
  unfold state_find in Hf. apply position_some in Hf as (st & Ht & Hsame & _).
  apply same_keys_true in Hsame.
  assert (Hst : pstate p t = st) by (unfold pstate; eapply nth_error_nth; eauto). rewrite Hst.
  assert (Hbp : forall c, In c bp <-> In c cur) by (intros; apply ssort_in).
  destruct (map_eq_combine (ckey (p_cfgs p)) bp (s_basis st)) as (M1 & M2 & M3); [congruence|].
  unfold merge_bplp. set (l := combine bp (s_basis st)) in *.
  destruct (merge_bplp_spec (p_cfgs p) l (fold_left (fun cs '(x, y) =>
     upd cs y (cfg_add_bplp (c_bplp (cfg cs x)))) l (p_cfgs p))) as (G & L & E & H1 & H2); auto.
  { intros x y Hin. apply in_combine_r in Hin. apply (iv_range _ I). eapply basis_own; eauto. }
  { intros x y Hin Hi. apply in_combine_l in Hin. apply Hbp in Hin. apply Hc in Hin as (_ & Hn & _).
    apply Hn. apply in_map_iff in Hi as ([x' y'] & Hy & Hi). simpl in Hy. subst y'.
    apply in_combine_r in Hi. eapply basis_own; eauto. }
  set (cs' := fold_left _ l (p_cfgs p)) in *.
  assert (Hkey : forall i, ckey cs' i = ckey (p_cfgs p) i) by (intros; apply E).
  assert (Hmap : forall B, map (ckey cs') B = map (ckey (p_cfgs p)) B) by (intros; apply map_ext; auto).
  assert (X1 : ext (fun _ => True) p (mkPst cs' (p_states p))).
  { constructor; simpl; auto; try (intros; apply E). exists []. now rewrite app_nil_r. }
  assert (Hcur : forall k, In k (map (ckey (p_cfgs p)) cur) <-> In k (map (ckey (p_cfgs p)) (s_basis st))).
  { intros k. rewrite Hsame, !in_map_iff. split; intros (c & Q1 & Q2); exists c; (split; [auto|]); now apply Hbp. }
  assert (Hold : forall st'' X B, goto_keys (p_cfgs p) (s_configs st'') X B -> goto_keys cs' (s_configs st'') X B).
  { intros st'' X B Hg k. rewrite Hmap, (Hg k). split; intros (c1 & Q1 & Q2 & Q3); exists c1; rewrite ?Hkey in *; auto. }
  constructor.
  - destruct I as [I1 I2 I3 I4 I5 I6 I7]. constructor; simpl; auto.
    + intros i Hi. rewrite L. auto.
    + intros s st' Hs'. eapply SI_same; [|eauto]. intros i Hi. splits; apply E.
    + intros s st' c j Hs' Hc' Hj. rewrite !Hkey.
      apply H2 in Hj as [Hj|(x & Hin & Hj)].
      * destruct (I4 s st' c j Hs' Hc' Hj) as (Q0 & s'' & st'' & X & Q1 & Q2 & Q3 & Q4 & Q5).
        split; auto. exists s'', st'', X. rewrite ?Hkey. splits; auto.
      * pose proof (in_combine_r _ _ _ _ Hin) as Hcb. pose proof (in_combine_l _ _ _ _ Hin) as Hxb.
        pose proof (M3 _ _ Hin) as Hxc.
        assert (s = t).
        { eapply nodup_flat_map_inj with (f := s_configs) (c := c); eauto.
          apply (si_basis _ _ _ _ (I3 _ _ Ht)); auto. }
        subst s. assert (st' = st) by congruence. subst st'. split; auto.
        apply Hbp in Hxb. destruct Hs as [(Hs0 & _)|(s'' & st'' & X & Q1 & Q2 & Q3 & Q4)].
        { rewrite Hs0 in Ht. destruct t; discriminate. }
        destruct (Q4 x Hxb) as [_ Q5]. destruct (Q5 j Hj) as (Q6 & Q7 & Q8).
        exists s'', st'', X. rewrite ?Hkey. splits; auto; [congruence|].
        apply Hold. intros k. rewrite <- Hcur. apply Q3.
    + intros s st' Hs'. rewrite Hmap. destruct (I5 s st' Hs') as [?|(s'' & st'' & X & Q1 & Q2 & Q3 & Q4)]; auto.
      right. exists s'', st'', X. splits; auto.
      destruct Q3 as (c1 & Q5 & Q6). exists c1. rewrite Hkey. auto.
    + intros s1 st1 s2 st2. rewrite !Hmap. eauto.
    + intros s st'. rewrite Hmap. eauto.
  - auto.
  - simpl. lia.
  - intros Hs0. rewrite Hs0 in Ht. destruct t; discriminate.
  - exists st. simpl. splits; auto.
    + intros k. rewrite Hmap. symmetry. auto.
    + intros c Hc1. apply Hbp in Hc1. destruct (M1 c Hc1) as [y Hy]. exists y.
      splits; [eapply in_combine_r; eauto| |apply H1; auto]. rewrite Hkey. symmetry. auto.
Qed.

Lemma nodup_map {A B} (f : A -> B) l : NoDup (map f l) -> NoDup l.
Proof.
  induction l as [|x l IH]; simpl; intros H; [constructor|]. inversion H; subst. constructor; auto.
  intros Hi. now apply (in_map f) in Hi.
Qed.

Lemma nodup_map_inj {A B} (f : A -> B) l x y : NoDup (map f l) -> In x l -> In y l -> f x = f y -> x = y.
Proof.
  induction l as [|a l IH]; simpl; intros H Hx Hy He; [contradiction|]. inversion H as [|? ? Hn Hd]; subst.
  destruct Hx as [->|Hx], Hy as [->|Hy]; auto.
  - exfalso. apply Hn. rewrite He. now apply in_map.
  - exfalso. apply Hn. rewrite <- He. now apply in_map.
Qed.

Lemma key_less_asym a b : key_less a b = true -> key_less b a = false.
Proof.
  destruct a as [a1 a2], b as [b1 b2]. unfold key_less; simpl. intros H.
  apply orb_true_iff in H. rewrite andb_true_iff, !Nat.ltb_lt, Nat.eqb_eq in H.
  apply orb_false_iff. rewrite andb_false_iff, !Nat.ltb_ge, Nat.eqb_neq. lia.
Qed.

Lemma key_less_trans a b c : key_less b a = false -> key_less c b = false -> key_less c a = false.
Proof.
  destruct a as [a1 a2], b as [b1 b2], c as [c1 c2]. unfold key_less; simpl.
  rewrite !orb_false_iff, !andb_false_iff, !Nat.ltb_ge, !Nat.eqb_neq. lia.
Qed.

Lemma key_less_total a b : key_less a b = false -> key_less b a = false -> a = b.
Proof.
  destruct a as [a1 a2], b as [b1 b2]. unfold key_less; simpl.
  rewrite !orb_false_iff, !andb_false_iff, !Nat.ltb_ge, !Nat.eqb_neq. intros. f_equal; lia.
Qed.

Lemma ssort_keys_sorted cs l : sorted_by key_less (map (ckey cs) (ssort (config_less cs) l)).
Proof.
  assert (H : sorted_by (config_less cs) (ssort (config_less cs) l)).
  { apply ssort_sorted; unfold config_less; eauto using key_less_asym, key_less_trans. }
  unfold sorted_by in *. induction H as [|x l' Hs IH Hf]; simpl; constructor; auto.
  rewrite Forall_forall in *. intros k Hk. apply in_map_iff in Hk as (y & <- & Hy). now apply Hf.
Qed.

Lemma sorted_nodup_unique l1 : forall l2, sorted_by key_less l1 -> sorted_by key_less l2 ->
  NoDup l1 -> NoDup l2 -> (forall k, In k l1 <-> In k l2) -> l1 = l2.
Proof.
  unfold sorted_by. induction l1 as [|a l1 IH]; intros [|b l2] S1 S2 N1 N2 H; auto.
  - exfalso. apply (proj2 (H b)). now left.
  - exfalso. apply (proj1 (H a)). now left.
  - inversion S1 as [|? ? S1' F1]; subst. inversion S2 as [|? ? S2' F2]; subst.
    inversion N1 as [|? ? M1 N1']; subst. inversion N2 as [|? ? M2 N2']; subst.
    rewrite Forall_forall in F1, F2.
    assert (a = b).
    { destruct (proj1 (H a) (or_introl eq_refl)) as [|Ha]; auto.
      destruct (proj2 (H b) (or_introl eq_refl)) as [|Hb]; auto.
      apply key_less_total; [now apply F2|now apply F1]. }
    subst b. f_equal. apply IH; auto. intros k. split; intros Hk.
    + destruct (proj1 (H k) (or_intror Hk)) as [<-|]; auto. contradiction.
    + destruct (proj2 (H k) (or_intror Hk)) as [<-|]; auto. contradiction.
Qed.

(** A new state is opened *)
Lemma get_new fuel cur p configs cs :
  getpre cur p ->
  state_find p (ssort (config_less (p_cfgs p)) cur) = None ->
  configlist_closure fuel g fi cur (p_cfgs p) = GOk (configs, cs) ->
  let L := ssort (config_less cs) configs in
  let bp := ssort (config_less (p_cfgs p)) cur in
  let p1 := mkPst (reset_status cs L) (p_states p ++ [mkState L bp []]) in
  Inv p1 /\ ext (fun _ => True) p p1 /\
  (forall c, In c L -> c_complete (cfg (p_cfgs p1) c) = false) /\
  (forall c, In c cur -> In c bp /\ ckey (p_cfgs p1) c = ckey (p_cfgs p) c /\
     c_bplp (cfg (p_cfgs p1) c) = c_bplp (cfg (p_cfgs p) c)) /\
  (forall k, In k (map (ckey (p_cfgs p1)) bp) <-> In k (map (ckey (p_cfgs p)) cur)).
Proof.
  intros [I Hc Hk Hs] Hf Hcl L bp p1.
  assert (Hbp : forall c, In c bp <-> In c cur) by (intros; apply ssort_in).
  assert (HL : forall c, In c L <-> In c configs) by (intros; apply ssort_in).
  apply (closure_loop_spec g fi W F cur (p_cfgs p)) in Hcl as (C & Inc & P).
  2:{ intros i Hi. now apply Hc. }
  2:{ constructor; auto using cgrow_refl.
      - exists 0. simpl. rewrite app_nil_r. split; auto.
      - intros. contradiction.
      - intros i Hi. now apply Hc.
      - intros i Hi. apply cr_base. now apply in_map. }
  2:{ intros j c Hj. lia. }
  pose proof (ci_grow _ _ _ _ _ C) as G.
  destruct (reset_status_spec L cs) as [RL RS].
  set (cs1 := reset_status cs L) in *.
  assert (Hkey1 : forall i, ckey cs1 i = ckey cs i) by (intros; apply RS).
  assert (Hmap1 : forall B, map (ckey cs1) B = map (ckey cs) B) by (intros; apply map_ext; auto).
  assert (Hown : forall i, In i (all_configs p) -> cfg cs1 i = cfg (p_cfgs p) i /\ ~ In i L).
  { intros i Hi. assert (Hi2 : ~ In i cur) by (intros Hi2; apply Hc in Hi2; tauto).
    pose proof (iv_range _ I i Hi) as Hr.
    assert (HiL : ~ In i L).
    { rewrite HL. destruct (ci_cur _ _ _ _ _ C) as (n & -> & _). intros Hin. apply in_app_or in Hin as [?|Hin]; auto.
      apply in_seq in Hin. lia. }
    split; auto. destruct (RS i) as (_ & _ & _ & _ & _ & R6). rewrite R6 by auto.
    apply (ci_other _ _ _ _ _ C); auto. }
  assert (Hownk : forall i, In i (all_configs p) -> ckey cs1 i = ckey (p_cfgs p) i).
  { intros i Hi. unfold ckey. now rewrite (proj1 (Hown i Hi)). }
  assert (Hcurk : forall i, In i cur -> ckey cs1 i = ckey (p_cfgs p) i).
  { intros i Hi. rewrite Hkey1. apply (cg_key _ _ G). now apply Hc. }
  assert (Hbpk : map (ckey cs1) bp = map (ckey (p_cfgs p)) bp).
  { apply map_ext_in. intros i Hi. apply Hcurk. now apply Hbp. }
  assert (Hbpin : forall k, In k (map (ckey (p_cfgs p)) bp) <-> In k (map (ckey (p_cfgs p)) cur)).
  { intros k. rewrite !in_map_iff. split; intros (c & Q1 & Q2); exists c; (split; [auto|]); now apply Hbp. }
  assert (X1 : ext (fun _ => True) p p1).
  { constructor; simpl; eauto.
    - eapply cgrow_trans; [exact G|]. constructor; try (intros; destruct (RS i) as (R1 & R2 & R3 & R4 & _)).
      + lia.
      + auto.
      + rewrite R2. apply incl_refl.
      + rewrite R3. apply incl_refl.
      + rewrite R4. apply incl_refl.
    - intros i Hi. destruct (Hown i Hi) as [-> _]. auto.
    - intros i Hi. destruct (Hown i Hi) as [-> _]. auto.
    - intros i Hi _. destruct (Hown i Hi) as [-> _]. auto. }
  assert (Hgk : forall st X B, (forall c, In c (s_configs st) -> In c (all_configs p)) ->
      (forall b, In b B -> In b (all_configs p) \/ In b cur) ->
      goto_keys (p_cfgs p) (s_configs st) X B -> goto_keys cs1 (s_configs st) X B).
  { intros st X B Hst HB Hg k.
    rewrite (map_ext_in _ (ckey (p_cfgs p))).
    2:{ intros b Hb. destruct (HB b Hb); auto. }
    rewrite (Hg k). split; intros (c & Q1 & Q2 & Q3); exists c.
    - rewrite Hownk by auto. auto.
    - rewrite Hownk in * by auto. auto. }
  assert (Hnst0 : (List.length (p_states p) =? 0) = true -> p_states p = []).
  { intros H0. apply Nat.eqb_eq in H0. destruct (p_states p); auto. discriminate. }
  assert (Hfws0 : forall c b, In c cur -> In b (c_fws (cfg (p_cfgs p) c)) ->
            (List.length (p_states p) =? 0) = true /\ b = 0).
  { intros c b Hcc Hb. destruct Hs as [(H0 & _ & H1)|(s & st & X & Q1 & _ & _ & Q4)].
    - destruct (H1 c Hcc) as [_ H2]. rewrite H2 in Hb. destruct Hb as [<-|[]]. rewrite H0. auto.
    - destruct (Q4 c Hcc) as [H2 _]. rewrite H2 in Hb. contradiction. }
  assert (Hp1 : p_cfgs p1 = cs1) by reflexivity.
  splits; auto.
  - constructor.
    + unfold all_configs. simpl. rewrite flat_map_app. simpl. rewrite app_nil_r.
      apply nodup_app_iff. splits.
      * apply (iv_nodup _ I).
      * apply ssort_nodup. eapply nodup_map. apply (ci_nodup _ _ _ _ _ C).
      * intros x H1 H2. apply Hown in H1. tauto.
    + unfold all_configs. simpl. rewrite flat_map_app. simpl. rewrite app_nil_r. rewrite RL.
      intros i Hi. apply in_app_or in Hi as [Hi|Hi].
      * apply (iv_range _ I) in Hi. pose proof (cg_len _ _ G). lia.
      * apply HL in Hi. eapply ci_range; eauto. intros; now apply Hc.
    + intros s st Hst. apply nth_error_last in Hst as [Hst|[-> ->]].
      * eapply SI_same; [|apply (iv_si _ I); eauto]. intros i Hi.
        assert (Ho : In i (all_configs p)) by (eapply own_in; eauto).
        rewrite Hp1. unfold ckey. destruct (Hown i Ho) as [-> _]. auto.
      * rewrite Hp1. cbn [s_configs s_basis].
        eapply SI_same with (cs := cs).
        { intros i Hi. splits; apply RS. }
        constructor.
        -- intros c Hcc. apply HL, Inc. now apply Hbp.
        -- eapply Permutation.Permutation_NoDup; [|apply (ci_nodup _ _ _ _ _ C)].
           apply Permutation.Permutation_map. apply Permutation.Permutation_sym, ssort_perm.
        -- intros c Hcc. apply (ci_valid _ _ _ _ _ C). now apply HL.
        -- intros c Hcc. apply HL in Hcc. apply (ci_reach _ _ _ _ _ C) in Hcc.
           eapply clo_reach_mono; [|exact Hcc]. intros k Hkin. cbv beta in *.
           rewrite <- Hmap1, Hbpk. now apply Hbpin.
        -- intros c Hcc Hn. apply HL in Hcc. apply (ci_new _ _ _ _ _ C) in Hcc; [tauto|].
           intros Hi. apply Hn. now apply Hbp.
        -- intros c Hcc. apply HL in Hcc.
           eapply processed_mono; [apply cgrow_refl| | | |exact (P c Hcc)].
           ++ intros x Hx. now apply HL.
           ++ eapply ci_range; eauto; intros; now apply Hc.
           ++ intros i Hi. eapply ci_range; eauto. intros; now apply Hc.
        -- intros c b Hcc Hb. apply HL in Hcc. destruct (ci_fws _ _ _ _ _ C c b Hcc Hb) as [[H1 H2]|(c1 & H1 & H2 & H3)].
           ++ destruct (Hfws0 c b H1 H2) as [H3 H4]. left. splits; auto. now apply Hbp.
           ++ right. exists c1. splits; auto. now apply HL.
        -- intros H0 c Hcc. apply Hbp in Hcc. destruct Hs as [(H1 & _ & H2)|(s & st & X & Q1 & _)].
           ++ apply (cg_fws _ _ G); [now apply Hc|]. destruct (H2 c Hcc) as [_ ->]. now left.
           ++ apply Hnst0 in H0. rewrite H0 in Q1. destruct s; discriminate.
        -- intros c j Hcc Hj. apply HL in Hcc. destruct (ci_fplp _ _ _ _ _ C c j Hcc Hj) as [[H1 H2]|(H1 & H2 & H3)].
           ++ apply Hc in H1 as (_ & _ & _ & H1). rewrite H1 in H2. contradiction.
           ++ splits; auto. now apply HL.
    + intros s st c j Hst Hcc Hj. rewrite Hp1 in *. apply nth_error_last in Hst as [Hst|[-> ->]].
      * assert (Ho : In c (all_configs p)) by (eapply own_in; eauto).
        rewrite (proj1 (Hown c Ho)) in Hj.
        destruct (iv_bplp _ I s st c j Hst Hcc Hj) as (Q0 & s' & st' & X & Q1 & Q2 & Q3 & Q4 & Q5).
        assert (Ho' : In j (all_configs p)) by (eapply own_in; eauto).
        split; auto. exists s', st', X. rewrite !Hownk by auto. splits; auto.
        -- simpl. rewrite nth_error_app1; auto. apply nth_error_Some. congruence.
        -- apply Hgk; auto. { intros; eapply own_in; eauto. } intros b Hb. left. eapply basis_own; eauto.
      * cbn [s_configs s_basis] in *. apply HL in Hcc. destruct (RS c) as (_ & _ & _ & R4 & _). rewrite R4 in Hj.
        destruct (in_dec Nat.eq_dec c cur) as [Hi|Hi].
        2:{ apply (ci_new _ _ _ _ _ C) in Hcc as (_ & H0 & _); auto. rewrite H0 in Hj. contradiction. }
        split; [now apply Hbp|].
        destruct (ci_basis _ _ _ _ _ C c Hi) as [H0 _]. rewrite H0 in Hj.
        destruct Hs as [(_ & _ & H2)|(s & st & X & Q1 & Q2 & Q3 & Q4)].
        { destruct (H2 c Hi) as [H3 _]. rewrite H3 in Hj. contradiction. }
        destruct (Q4 c Hi) as [_ Q5]. destruct (Q5 j Hj) as (Q6 & Q7 & Q8).
        assert (Ho' : In j (all_configs p)) by (eapply own_in; eauto).
        exists s, st, X. rewrite (Hcurk c Hi), (Hownk j Ho'). splits; auto.
        -- simpl. rewrite nth_error_app1; auto. apply nth_error_Some. congruence.
        -- apply Hgk; auto. { intros; eapply own_in; eauto. } { intros b Hb. right. now apply Hbp. }
           intros k. rewrite Hbpin. apply Q3.
    + intros s st Hst. rewrite Hp1. apply nth_error_last in Hst as [Hst|[-> ->]].
      * rewrite (map_ext_in _ (ckey (p_cfgs p))).
        2:{ intros b Hb. apply Hownk. eapply basis_own; eauto. }
        destruct (iv_pred _ I s st Hst) as [?|(s' & st' & X & Q1 & Q2 & Q3 & Q4)]; auto.
        right. exists s', st', X. splits; auto.
        -- simpl. rewrite nth_error_app1; auto. apply nth_error_Some. congruence.
        -- destruct Q3 as (c1 & Q5 & Q6). exists c1. rewrite Hownk; auto. eapply own_in; eauto.
        -- apply Hgk; auto. { intros; eapply own_in; eauto. } intros b Hb. left. eapply basis_own; eauto.
      * cbn [s_basis]. rewrite Hbpk. destruct Hs as [(H0 & H1 & _)|(s & st & X & Q1 & Q2 & Q3 & Q4)].
        -- left. rewrite H0. split; auto. intros k. rewrite Hbpin. apply H1.
        -- right. exists s, st, X. splits; auto.
           ++ apply nth_error_Some. congruence.
           ++ simpl. rewrite nth_error_app1; auto. apply nth_error_Some. congruence.
           ++ destruct Q2 as (c1 & Q5 & Q6). exists c1. rewrite Hownk; auto. eapply own_in; eauto.
           ++ apply Hgk; auto. { intros; eapply own_in; eauto. } { intros b Hb. right. now apply Hbp. }
              intros k. rewrite Hbpin. apply Q3.
    + assert (Hno : forall s st, nth_error (p_states p) s = Some st ->
         map (ckey cs1) (s_basis st) <> map (ckey cs1) bp).
      { intros s st Hst He. unfold state_find in Hf.
        pose proof (position_none _ _ Hf st (nth_error_In _ _ Hst)) as Hst'. cbv beta in Hst'.
        rewrite (proj2 (same_keys_true _ _ _)) in Hst'; [discriminate|].
        fold bp. rewrite <- Hbpk, <- He. symmetry. apply map_ext_in. intros b Hb. apply Hownk. eapply basis_own; eauto. }
      intros s1 st1 s2 st2 H1 H2 He. rewrite Hp1 in He.
      apply nth_error_last in H1 as [H1|[-> ->]]; apply nth_error_last in H2 as [H2|[-> ->]]; auto.
      * rewrite (map_ext_in _ (ckey (p_cfgs p)) (s_basis st1)) in He by (intros b Hb; apply Hownk; eapply basis_own; eauto).
        rewrite (map_ext_in _ (ckey (p_cfgs p)) (s_basis st2)) in He by (intros b Hb; apply Hownk; eapply basis_own; eauto).
        eapply (iv_uniq _ I); eauto.
      * exfalso. eapply Hno; eauto.
      * exfalso. eapply Hno; eauto.
    + intros s st Hst. rewrite Hp1. apply nth_error_last in Hst as [Hst|[-> ->]].
      * rewrite (map_ext_in _ (ckey (p_cfgs p))) by (intros b Hb; apply Hownk; eapply basis_own; eauto).
        apply (iv_sorted _ I _ _ Hst).
      * cbn [s_basis]. rewrite Hbpk. split; [apply ssort_keys_sorted|].
        eapply Permutation.Permutation_NoDup; [|exact Hk].
        apply Permutation.Permutation_map, Permutation.Permutation_sym, ssort_perm.
  - intros c Hcc. destruct (RS c) as (_ & _ & _ & _ & R5 & _). rewrite Hp1. auto.
  - intros c Hcc. rewrite Hp1. splits; auto; [now apply Hbp|].
    destruct (RS c) as (_ & _ & _ & R4 & _). rewrite R4. now apply (ci_basis _ _ _ _ _ C).
  - intros k. rewrite Hp1, Hbpk. apply Hbpin.
Qed.

(** Changing [complete] flags and appending items nobody owns keeps the invariant. *)
Lemma Inv_frame p cs' (K : nat -> Prop) :
  Inv p -> cgrow (p_cfgs p) cs' ->
  (forall i, In i (all_configs p) -> c_fws (cfg cs' i) = c_fws (cfg (p_cfgs p) i) /\
     c_fplp (cfg cs' i) = c_fplp (cfg (p_cfgs p) i) /\ c_bplp (cfg cs' i) = c_bplp (cfg (p_cfgs p) i)) ->
  (forall i, In i (all_configs p) -> K i -> c_complete (cfg cs' i) = c_complete (cfg (p_cfgs p) i)) ->
  Inv (mkPst cs' (p_states p)) /\ ext K p (mkPst cs' (p_states p)).
Proof.
  intros I G Ho HK. set (p' := mkPst cs' (p_states p)).
  assert (X : ext K p p').
  { constructor; simpl; auto; try (intros; now apply Ho). exists []. now rewrite app_nil_r. }
  split; auto.
  assert (Hk : forall i, In i (all_configs p) -> ckey cs' i = ckey (p_cfgs p) i).
  { intros i Hi. apply (cg_key _ _ G). now apply (iv_range _ I). }
  assert (Hm : forall s st, nth_error (p_states p) s = Some st ->
     map (ckey cs') (s_basis st) = map (ckey (p_cfgs p)) (s_basis st)).
  { intros s st Hst. apply map_ext_in. intros b Hb. apply Hk. eapply basis_own; eauto. }
  assert (Hg : forall s st s' st' Y, nth_error (p_states p) s = Some st -> nth_error (p_states p) s' = Some st' ->
     goto_keys (p_cfgs p) (s_configs st') Y (s_basis st) -> goto_keys cs' (s_configs st') Y (s_basis st)).
  { intros s st s' st' Y H1 H2 H3. eapply (goto_keys_ext K p p'); eauto.
    intros b Hb. eapply basis_own; eauto. }
  constructor; unfold p' in *; cbn [p_cfgs p_states] in *.
  - apply (iv_nodup _ I).
  - intros i Hi. apply (iv_range _ I) in Hi. pose proof (cg_len _ _ G). lia.
  - intros s st Hst. eapply SI_same; [|apply (iv_si _ I); eauto]. intros i Hi.
    assert (In i (all_configs p)) by (eapply own_in; eauto). splits; auto; now apply Ho.
  - intros s st c j Hst Hc Hj.
    assert (Hco : In c (all_configs p)) by (eapply own_in; eauto).
    destruct (Ho c Hco) as (_ & _ & Hb). rewrite Hb in Hj.
    destruct (iv_bplp _ I s st c j Hst Hc Hj) as (Q0 & s' & st' & Y & Q1 & Q2 & Q3 & Q4 & Q5).
    assert (Hjo : In j (all_configs p)) by (eapply own_in; eauto).
    split; auto. exists s', st', Y. rewrite (Hk c Hco), (Hk j Hjo). splits; eauto.
  - intros s st Hst. rewrite (Hm s st Hst). destruct (iv_pred _ I s st Hst) as [?|(s' & st' & Y & Q1 & Q2 & Q3 & Q4)]; auto.
    right. exists s', st', Y. splits; eauto.
    destruct Q3 as (c1 & Q5 & Q6). exists c1. rewrite Hk; auto. eapply own_in; eauto.
  - intros s1 st1 s2 st2 H1 H2. rewrite (Hm _ _ H1), (Hm _ _ H2). eapply (iv_uniq _ I); eauto.
  - intros s st Hst. rewrite (Hm s st Hst). apply (iv_sorted _ I _ _ Hst).
Qed.

Definition get_ok (n : nat) : Prop := forall cur p t p',
  getpre cur p -> get_state n g fi cur p = GOk (t, p') -> getpost cur p t p'.

Lemma acts_of_app a b : acts_of (a ++ b) = acts_of a ++ acts_of b.
Proof. apply flat_map_app. Qed.

Lemma loop_full n (IHget : get_ok n) id st : forall l pre lst p,
  Inv p -> nth_error (p_states p) id = Some st -> s_configs st = pre ++ l ->
  (forall c, In c (s_configs st) -> (c_complete (cfg (p_cfgs p) c) = true <->
     exists X, kpost g (ckey (p_cfgs p) c) = Some X /\ In X (map fst lst))) ->
  (forall c X, In c pre -> kpost g (ckey (p_cfgs p) c) = Some X -> In X (map fst lst)) ->
  (forall X, In X (map fst lst) -> has_post (p_cfgs p) (s_configs st) X) ->
  NoDup (map fst lst) -> links p (s_configs st) lst ->
  match build_shifts_loop g (get_state n g fi) l (acts_of lst) p with
  | GOk (aps, p') =>
  exists lst', aps = acts_of lst' /\ NoDup (map fst lst') /\
      (forall X, In X (map fst lst') <-> has_post (p_cfgs p') (s_configs st) X) /\
      links p' (s_configs st) lst' /\ Inv p' /\ ext (fun i => ~ In i (s_configs st)) p p' /\
      (forall s, List.length (p_states p) <= s < List.length (p_states p') -> done p' s)
  | GFuel => exists cur q, getpre cur q /\ List.length (p_states p) <= List.length (p_states q) /\ get_state n g fi cur q = GFuel
  | _ => True
  end.
Proof.
  induction l as [|c rest IH]; intros pre lst p I Hid HL Hcm Hpre Hhas ND Hl; cbn [build_shifts_loop].
  - exists lst. rewrite app_nil_r in HL. subst pre. splits; auto using ext_refl.
    + intros X. split; auto. intros (c & H1 & H2). eauto.
    + intros s Hs. lia.
  - assert (Hcin : In c (s_configs st)) by (rewrite HL; apply in_or_app; right; now left).
    destruct (c_complete (cfg (p_cfgs p) c)) eqn:Ec.
    { apply (IH (pre ++ [c])); auto.
      - rewrite HL, <- app_assoc. reflexivity.
      - intros c' X Hc' HX. apply in_app_or in Hc' as [Hc'|[<-|[]]]; eauto.
        apply (Hcm c Hcin) in Ec as (X' & H1 & H2). congruence. }
    rewrite shift_sym_kpost.
    destruct (kpost g (ckey (p_cfgs p) c)) as [sp|] eqn:Es.
    2:{ apply (IH (pre ++ [c])); auto.
        - rewrite HL, <- app_assoc. reflexivity.
        - intros c' X Hc' HX. apply in_app_or in Hc' as [Hc'|[<-|[]]]; eauto. congruence. }
    assert (Hsp : ~ In sp (map fst lst)).
    { intros Hi. assert (c_complete (cfg (p_cfgs p) c) = true) by (apply (Hcm c Hcin); eauto). congruence. }
    destruct (shift_basis g sp (c :: rest) [] (p_cfgs p)) as [basis cs] eqn:Eb.
    pose proof (iv_si _ I id st Hid) as Sid.
    assert (Hincl : forall x, In x (c :: rest) -> In x (s_configs st)).
    { intros x Hx. rewrite HL. apply in_or_app. now right. }
    apply shift_basis_spec in Eb as (B1 & B2 & B3 & B4).
    2:{ pose proof (si_keys _ _ _ _ Sid) as Hnd. rewrite HL, map_app in Hnd. apply nodup_app_iff in Hnd. tauto. }
    2:{ intros b Hb. apply (iv_range _ I). eapply own_in; eauto. }
    2:{ contradiction. } 2:{ contradiction. } 2:{ contradiction. }
    rewrite app_nil_l in B1. set (sel := filter (selects g sp (p_cfgs p)) (c :: rest)) in *.
    assert (Hsel : forall x, In x sel <-> In x (s_configs st) /\ kpost g (ckey (p_cfgs p) x) = Some sp).
    { intros x. unfold sel. rewrite filter_In, selects_true. split; [intros (H1 & H2 & H3); auto|].
      intros [H1 H2]. split.
      - rewrite HL in H1. apply in_app_or in H1 as [H1|H1]; auto. exfalso. eauto.
      - split; auto. destruct (c_complete (cfg (p_cfgs p) x)) eqn:Ex; auto.
        apply (Hcm x H1) in Ex as (X & H3 & H4). exfalso. congruence. }
    assert (Hown : forall i, In i (all_configs p) -> i < List.length (p_cfgs p)) by apply (iv_range _ I).
    assert (Hcs : forall i, i < List.length (p_cfgs p) ->
       ckey cs i = ckey (p_cfgs p) i /\ c_fws (cfg cs i) = c_fws (cfg (p_cfgs p) i) /\
       c_fplp (cfg cs i) = c_fplp (cfg (p_cfgs p) i) /\ c_bplp (cfg cs i) = c_bplp (cfg (p_cfgs p) i)).
    { intros i Hi. unfold ckey. rewrite B3 by auto. destruct (existsb _ sel); auto. }
    assert (Gc : cgrow (p_cfgs p) cs).
    { constructor; [lia|..]; intros i Hi; destruct (Hcs i Hi) as (E1 & E2 & E3 & E4); auto.
      - rewrite E2. apply incl_refl.
      - rewrite E3. apply incl_refl.
      - rewrite E4. apply incl_refl. }
    destruct (Inv_frame p cs (fun i => ~ In i (s_configs st)) I Gc) as [I1 X1].
    { intros i Hi. destruct (Hcs i (Hown i Hi)) as (E1 & E2 & E3 & E4). auto. }
    { intros i Hi Hn. rewrite B3 by auto. destruct (existsb (Nat.eqb i) sel) eqn:Ee; auto.
      apply existsb_exists in Ee as (x & Hx & Hix). apply Nat.eqb_eq in Hix. subst x.
      apply Hsel in Hx. tauto. }
    set (p1 := mkPst cs (p_states p)) in *.
    assert (Hidx : forall b, In b basis <-> exists j, b = List.length (p_cfgs p) + j /\ j < List.length sel).
    { intros b. rewrite B1, in_seq. split; [intros [H1 H2]; exists (b - List.length (p_cfgs p)); lia|].
      intros (j & -> & Hj). lia. }
    assert (Hnew : forall j, j < List.length sel -> exists x, In x sel /\
        nth_error sel j = Some x /\
        cfg cs (List.length (p_cfgs p) + j) = mkCfg (c_rule (cfg (p_cfgs p) x)) (S (c_dot (cfg (p_cfgs p) x))) [] [] [x] false).
    { intros j Hj. destruct (nth_error sel j) as [x|] eqn:Ex.
      - exists x. splits; auto. eapply nth_error_In; eauto.
      - apply nth_error_None in Ex. lia. }
    assert (Hbas : forall b, In b basis -> exists x, In x sel /\
        cfg cs b = mkCfg (c_rule (cfg (p_cfgs p) x)) (S (c_dot (cfg (p_cfgs p) x))) [] [] [x] false).
    { intros b Hb. apply Hidx in Hb as (j & -> & Hj). destruct (Hnew j Hj) as (x & H1 & _ & H2). eauto. }
    assert (Hbask : forall b x, cfg cs b = mkCfg (c_rule (cfg (p_cfgs p) x)) (S (c_dot (cfg (p_cfgs p) x))) [] [] [x] false ->
              ckey cs b = kadv (ckey (p_cfgs p) x)).
    { intros b x Hx. unfold ckey. rewrite Hx. reflexivity. }
    assert (Hselb : forall x, In x sel -> exists b, In b basis /\
        cfg cs b = mkCfg (c_rule (cfg (p_cfgs p) x)) (S (c_dot (cfg (p_cfgs p) x))) [] [] [x] false).
    { intros x Hx. apply In_nth_error in Hx as [j Hj]. exists (List.length (p_cfgs p) + j). split.
      - apply Hidx. exists j. split; auto. apply nth_error_Some. congruence.
      - now apply B4. }
    assert (Hownsel : forall x, In x sel -> In x (all_configs p)).
    { intros x Hx. eapply own_in; eauto. now apply Hsel. }
    assert (Hkeys : forall k, In k (map (ckey cs) basis) <->
        exists c, In c (s_configs st) /\ kpost g (ckey cs c) = Some sp /\ k = kadv (ckey cs c)).
    { intros k. rewrite in_map_iff. split.
      - intros (b & <- & Hb). destruct (Hbas b Hb) as (x & H1 & H2). exists x.
        destruct (Hcs x (Hown x (Hownsel x H1))) as (E1 & _). rewrite E1.
        apply Hsel in H1 as [H3 H4]. splits; auto.
      - intros (x & H1 & H2 & ->).
        assert (Hxo : In x (all_configs p)) by (eapply own_in; eauto).
        destruct (Hcs x (Hown x Hxo)) as (E1 & _). rewrite E1 in *.
        destruct (Hselb x) as (b & H3 & H4); [now apply Hsel|]. exists b. split; auto. }
    assert (Hpre1 : getpre basis p1).
    { constructor; auto; unfold p1; cbn [p_cfgs p_states].
      - intros b Hb. pose proof Hb as Hb'. apply Hidx in Hb' as (j & Hbj & Hj).
        destruct (Hbas b Hb) as (x & H1 & H2). splits.
        + lia.
        + intros Hi. apply Hown in Hi. lia.
        + rewrite (Hbask b x H2). apply Hsel in H1 as [H3 H4]. eapply kpost_valid; eauto.
          apply (si_valid _ _ _ _ Sid); auto.
        + rewrite H2. reflexivity.
      - (* keys of the new basis are distinct *)
        assert (Hmk : map (ckey cs) basis = map (fun x => kadv (ckey (p_cfgs p) x)) sel).
        { rewrite B1. clear -B4 Hbask. 
          assert (Hgen : forall l' off, (forall j x, nth_error l' j = Some x -> ckey cs (off + j) = kadv (ckey (p_cfgs p) x)) ->
             map (ckey cs) (seq off (List.length l')) = map (fun x => kadv (ckey (p_cfgs p) x)) l').
          { induction l' as [|x l' IHl]; intros off Hj; simpl; auto. f_equal.
            - rewrite <- (Hj 0 x); auto.
            - apply IHl. intros j y Hy. rewrite <- (Hj (S j) y); auto. f_equal. lia. }
          apply Hgen. intros j x Hx. apply Hbask. now apply B4. }
        rewrite Hmk. pose proof (si_keys _ _ _ _ Sid) as Hnd.
        assert (Hnd2 : NoDup (map (ckey (p_cfgs p)) sel)).
        { rewrite HL, map_app in Hnd. apply nodup_app_iff in Hnd as (_ & Hnd & _).
          clear -Hnd. unfold sel. revert Hnd. generalize (c :: rest) as l. induction l as [|x l IHl]; intros Hnd; simpl; [constructor|].
          inversion Hnd as [|? ? Hn Hd]; subst. destruct (selects _ _ _ _); auto. simpl. constructor; auto.
          intros Hi. apply Hn. apply in_map_iff in Hi as (y & <- & Hy). apply filter_In in Hy as [Hy _]. now apply in_map. }
        clear -Hnd2. induction sel as [|x l IHl]; simpl in *; [constructor|].
        inversion Hnd2 as [|? ? Hn Hd]; subst. constructor; auto.
        intros Hi. apply Hn. apply in_map_iff in Hi as (y & He & Hy). apply in_map_iff. exists y. split; auto.
        unfold kadv in He. inversion He. destruct (ckey (p_cfgs p) x), (ckey (p_cfgs p) y). simpl in *. congruence.
      - right. exists id, st, sp. cbn [p_cfgs p_states]. splits; auto.
        + exists c. split; auto. destruct (Hcs c (Hown c (own_in _ _ _ _ Hcin Hid))) as (E1 & _). now rewrite E1.
        + intros b Hb. destruct (Hbas b Hb) as (x & H1 & H2). rewrite (Hbask b x H2), H2. split; auto.
          intros j [<-|[]]. destruct (Hcs x (Hown x (Hownsel x H1))) as (E1 & _). rewrite E1.
          apply Hsel in H1 as [H3 H4]. auto. }
    destruct (get_state n g fi basis p1) as [[ns p2]| | |] eqn:Eg; cbn [gbind]; [|exact Logic.I|exact Logic.I|exists basis, p1; auto].
    apply IHget in Eg as [J1 J2 J3 _ (st2 & J4 & J5 & J6)]; auto.
    assert (X12 : ext (fun i => ~ In i (s_configs st)) p1 p2) by (eapply ext_weaken; [|exact J2]; intros; constructor).
    assert (X02 : ext (fun i => ~ In i (s_configs st)) p p2) by (eapply ext_trans; eauto).
    assert (Hid1 : nth_error (p_states p1) id = Some st) by exact Hid.
    assert (Hid2 : nth_error (p_states p2) id = Some st) by (eapply ex_nth; eauto).
    assert (Hk2 : forall x, In x (s_configs st) -> ckey (p_cfgs p2) x = ckey (p_cfgs p) x).
    { intros x Hx. eapply ex_key; eauto. eapply own_in; eauto. }
    assert (Hln : links p2 (s_configs st) (lst ++ [(sp, ns)])).
    { intros X t Hin. apply in_app_or in Hin as [Hin|[Heq|[]]].
      - eapply (links_ext _ p p2); eauto.
      - inversion Heq; subst X t. exists st2. splits; auto.
        + intros k. rewrite (J5 k). unfold p1. cbn [p_cfgs]. rewrite (Hkeys k).
          split; intros (x & Q1 & Q2 & Q3); exists x; rewrite ?Hk2 in * by auto;
            destruct (Hcs x (Hown x (own_in _ _ _ _ Q1 Hid))) as (E1 & _); rewrite E1 in *; auto.
        + intros x Hx HX. rewrite Hk2 in * by auto. destruct (Hselb x) as (b & Q1 & Q2); [now apply Hsel|].
          destruct (J6 b Q1) as (c' & Q3 & Q4 & Q5). exists c'. splits; auto.
          * rewrite Q4. unfold p1. cbn [p_cfgs]. auto.
          * apply Q5. unfold p1. cbn [p_cfgs]. rewrite Q2. simpl. auto. }
    replace (acts_of lst ++ shift_actions g sp ns) with (acts_of (lst ++ [(sp, ns)])).
    2:{ rewrite acts_of_app. f_equal. unfold acts_of. simpl. apply app_nil_r. }
    assert (HR := IH (pre ++ [c]) (lst ++ [(sp, ns)]) p2).
    enough (HS : forall aps0, aps0 = acts_of (lst ++ [(sp, ns)]) -> match build_shifts_loop g (get_state n g fi) rest aps0 p2 with
      | GOk (aps, p') => exists lst', aps = acts_of lst' /\ NoDup (map fst lst') /\
          (forall X, In X (map fst lst') <-> has_post (p_cfgs p') (s_configs st) X) /\
          links p' (s_configs st) lst' /\ Inv p' /\ ext (fun i => ~ In i (s_configs st)) p2 p' /\
          (forall s, List.length (p_states p2) <= s < List.length (p_states p') -> done p' s)
      | GFuel => exists cur q, getpre cur q /\ List.length (p_states p2) <= List.length (p_states q) /\ get_state n g fi cur q = GFuel
      | _ => True end).
    { specialize (HS _ eq_refl). clear HR. destruct (build_shifts_loop g (get_state n g fi) rest (acts_of (lst ++ [(sp, ns)])) p2) as [[aps p']| | |]; auto.
      - destruct HS as (lst' & R1 & R2 & R3 & R4 & R5 & R6 & R7). exists lst'. splits; auto.
        + eapply ext_trans; eauto.
        + intros s Hs. destruct (Nat.lt_ge_cases s (List.length (p_states p2))) as [Hlt|Hge].
          * eapply done_ext; [|exact R6|]; auto. apply J3. unfold p1. cbn [p_states]. lia.
          * apply R7. lia.
      - destruct HS as (cur & q & Q1 & Q2 & Q3). exists cur, q. splits; auto. pose proof (ex_len _ _ _ X02). lia. }
    intros aps0 ->. apply HR; auto; clear HR.
    + rewrite HL, <- app_assoc. reflexivity.
    + intros x Hx. rewrite Hk2 by auto. rewrite (ex_complete _ _ _ J2) by (auto; eapply (own_in p1); eauto).
      unfold p1. cbn [p_cfgs]. pose proof (own_in _ _ _ _ Hx Hid) as Hxo. rewrite B3 by auto.
      rewrite map_app. simpl. destruct (existsb (Nat.eqb x) sel) eqn:Ee.
      * apply existsb_exists in Ee as (y & Hy & Hxy). apply Nat.eqb_eq in Hxy. subst y.
        simpl. split; auto. intros _. exists sp. split; [now apply Hsel|]. apply in_or_app. right. now left.
      * rewrite (Hcm x Hx). split; intros (X & Q1 & Q2); exists X; split; auto.
        -- apply in_or_app. now left.
        -- apply in_app_or in Q2 as [Q2|[<-|[]]]; auto. exfalso.
           rewrite (proj2 (existsb_exists _ _)) in Ee; [discriminate|]. exists x. split; [now apply Hsel|apply Nat.eqb_refl].
    + intros x X Hx. assert (Hxs : In x (s_configs st)).
      { rewrite HL. apply in_app_or in Hx as [Hx|[<-|[]]]; apply in_or_app; [now left|right; now left]. }
      rewrite Hk2 by auto. intros HX. rewrite map_app. apply in_or_app.
      apply in_app_or in Hx as [Hx|[<-|[]]]; [left; eauto|]. right. simpl. left. congruence.
    + intros X HX. rewrite map_app in HX. apply in_app_or in HX as [HX|[<-|[]]].
      * apply Hhas in HX as (x & Q1 & Q2). exists x. rewrite Hk2; auto.
      * exists c. rewrite Hk2; auto.
    + rewrite map_app. apply nodup_app_iff. splits; auto.
      * simpl. constructor; [auto|constructor].
      * intros X HX [<-|[]]. auto.
Qed.

Lemma loop_spec n (IHget : get_ok n) id st : forall l pre lst p aps p',
  Inv p -> nth_error (p_states p) id = Some st -> s_configs st = pre ++ l ->
  (forall c, In c (s_configs st) -> (c_complete (cfg (p_cfgs p) c) = true <->
     exists X, kpost g (ckey (p_cfgs p) c) = Some X /\ In X (map fst lst))) ->
  (forall c X, In c pre -> kpost g (ckey (p_cfgs p) c) = Some X -> In X (map fst lst)) ->
  (forall X, In X (map fst lst) -> has_post (p_cfgs p) (s_configs st) X) ->
  NoDup (map fst lst) -> links p (s_configs st) lst ->
  build_shifts_loop g (get_state n g fi) l (acts_of lst) p = GOk (aps, p') ->
  exists lst', aps = acts_of lst' /\ NoDup (map fst lst') /\
    (forall X, In X (map fst lst') <-> has_post (p_cfgs p') (s_configs st) X) /\
    links p' (s_configs st) lst' /\ Inv p' /\ ext (fun i => ~ In i (s_configs st)) p p' /\
    (forall s, List.length (p_states p) <= s < List.length (p_states p') -> done p' s).
Proof.
  intros l pre lst p aps p' H1 H2 H3 H4 H5 H6 H7 H8 H. pose proof (loop_full n IHget id st l pre lst p H1 H2 H3 H4 H5 H6 H7 H8) as HF.
  rewrite H in HF. exact HF.
Qed.

Theorem get_state_spec : forall n, get_ok n.
Proof.
  induction n as [|n IH]; intros cur p t p' Hpre H; [discriminate|].
  cbn [get_state] in H.
  set (bp := ssort (config_less (p_cfgs p)) cur) in *.
  destruct (state_find p bp) as [s|] eqn:Ef.
  { inversion H; subst. now apply get_found. }
  destruct (configlist_closure (S n) g fi cur (p_cfgs p)) as [[configs cs]| | |] eqn:Ec; try discriminate.
  cbn [gbind] in H.
  destruct (get_new _ _ _ _ _ Hpre Ef Ec) as (I1 & X1 & C1 & B1 & K1).
  fold bp in I1, X1, C1, B1, K1.
  set (L := ssort (config_less cs) configs) in *.
  set (p1 := mkPst (reset_status cs L) (p_states p ++ [mkState L bp []])) in *.
  set (id := List.length (p_states p)) in *.
  set (st := mkState L bp []) in *.
  assert (Hid : nth_error (p_states p1) id = Some st).
  { unfold p1, id. cbn [p_states]. rewrite nth_error_app2, Nat.sub_diag by auto. reflexivity. }
  destruct (build_shifts_loop g (get_state n g fi) L [] p1) as [[aps p2]| | |] eqn:Eb; try discriminate.
  cbn [gbind] in H. inversion H; subst t p'. clear H.
  assert (Hl0 : links p1 (s_configs st) []) by (intros X t []).
  apply (loop_spec n IH id st L [] [] p1 aps p2) in Eb as (lst & R1 & R2 & R3 & R4 & R5 & R6 & R7); auto.
  2:{ intros c Hc. split; [intros Hcc; rewrite C1 in Hcc by exact Hc; discriminate|]. intros (X & _ & []). }
  2:{ intros X []. } 2:{ constructor. }
  set (p3 := mkPst (p_cfgs p2) (upd (p_states p2) id (fun s => st_set_actions (s_actions s ++ aps) s))).
  assert (Hid2 : nth_error (p_states p2) id = Some st) by (eapply ex_nth; eauto).
  set (st3 := mkState L bp aps).
  assert (Hid3 : nth_error (p_states p3) id = Some st3).
  { unfold p3. cbn [p_states]. rewrite nth_error_upd_same, Hid2. reflexivity. }
  assert (Hoth : forall s, s <> id -> nth_error (p_states p3) s = nth_error (p_states p2) s).
  { intros s Hs. unfold p3. cbn [p_states]. apply nth_error_upd_other. auto. }
  assert (Hsame : forall s st', nth_error (p_states p3) s = Some st' -> exists st'', nth_error (p_states p2) s = Some st'' /\
     s_configs st'' = s_configs st' /\ s_basis st'' = s_basis st').
  { intros s st' Hs. destruct (Nat.eq_dec s id) as [->|Hn].
    - rewrite Hid3 in Hs. inversion Hs; subst st'. exists st. auto.
    - rewrite Hoth in Hs by auto. eauto. }
  assert (Hsame' : forall s st'', nth_error (p_states p2) s = Some st'' -> exists st', nth_error (p_states p3) s = Some st' /\
     s_configs st'' = s_configs st' /\ s_basis st'' = s_basis st').
  { intros s st' Hs. destruct (Nat.eq_dec s id) as [->|Hn].
    - rewrite Hid2 in Hs. inversion Hs; subst st'. exists st3. auto.
    - rewrite <- Hoth in Hs by auto. eauto. }
  assert (Hall : all_configs p3 = all_configs p2).
  { unfold all_configs, p3. cbn [p_states]. generalize id as i0. clear. induction (p_states p2) as [|a l IHl]; intros [|i0]; simpl; f_equal; auto. }
  assert (Hlk : forall M lst', links p2 M lst' -> links p3 M lst').
  { intros M lst' Hl X t Hin. destruct (Hl X t Hin) as (st' & Q1 & Q2 & Q3).
    destruct (Hsame' _ _ Q1) as (st'' & Q4 & Q5 & Q6). exists st''. rewrite <- Q6. auto. }
  constructor.
  - constructor.
    + rewrite Hall. apply (iv_nodup _ R5).
    + rewrite Hall. apply (iv_range _ R5).
    + intros s st' Hs. destruct (Hsame _ _ Hs) as (st'' & Q1 & <- & <-). apply (iv_si _ R5 s st'' Q1).
    + intros s st' c j Hs Hc Hj. destruct (Hsame _ _ Hs) as (st'' & Q1 & Q2 & Q3). rewrite <- Q2 in Hc.
      destruct (iv_bplp _ R5 s st'' c j Q1 Hc Hj) as (T0 & s' & sx & X & T1 & T2 & T3 & T4 & T5).
      rewrite <- Q3. split; auto. destruct (Hsame' _ _ T1) as (sy & T6 & T7 & T8).
      exists s', sy, X. rewrite <- T7. auto.
    + intros s st' Hs. destruct (Hsame _ _ Hs) as (st'' & Q1 & Q2 & Q3). rewrite <- Q3.
      destruct (iv_pred _ R5 s st'' Q1) as [?|(s' & sx & X & T1 & T2 & T3 & T4)]; auto.
      right. destruct (Hsame' _ _ T2) as (sy & T6 & T7 & T8). exists s', sy, X. rewrite <- T7. auto.
    + intros s1 st1 s2 st2 H1 H2. destruct (Hsame _ _ H1) as (sx & Q1 & Q2 & <-), (Hsame _ _ H2) as (sy & Q4 & Q5 & <-).
      apply (iv_uniq _ R5 s1 sx s2 sy Q1 Q4).
    + intros s st' Hs. destruct (Hsame _ _ Hs) as (st'' & Q1 & _ & <-). apply (iv_sorted _ R5 _ _ Q1).
  - destruct (ex_states _ _ _ R6) as [l Hl]. unfold p1 in Hl. cbn [p_states] in Hl.
    assert (X2 : ext (fun _ => True) p p2).
    { constructor.
      - rewrite Hl. rewrite <- app_assoc. eauto.
      - eapply cgrow_trans; [apply (ex_grow _ _ _ X1)|apply (ex_grow _ _ _ R6)].
      - intros i Hi. rewrite (ex_fws _ _ _ R6), (ex_fws _ _ _ X1); eauto using ex_all.
      - intros i Hi. rewrite (ex_fplp _ _ _ R6), (ex_fplp _ _ _ X1); eauto using ex_all.
      - intros i Hi _. rewrite (ex_complete _ _ _ R6); [rewrite (ex_complete _ _ _ X1); auto|eauto using ex_all|].
        intros HiL. pose proof (iv_nodup _ I1) as Hnd. unfold all_configs, p1 in Hnd. cbn [p_states] in Hnd.
        rewrite flat_map_app in Hnd. apply nodup_app_iff in Hnd as (_ & _ & Hd). apply (Hd i); auto.
        simpl. rewrite app_nil_r. exact HiL. }
    destruct X2 as [Y1 Y2 Y3 Y4 Y5]. constructor; auto.
    unfold p3. cbn [p_states]. rewrite Hl. rewrite <- app_assoc. rewrite upd_app_r by (unfold id; lia). eauto.
  - intros s Hs. unfold p3 in Hs. cbn [p_states] in Hs. rewrite upd_length in Hs.
    destruct (Nat.eq_dec s id) as [->|Hn].
    + exists st3, lst. splits; auto.
    + destruct (R7 s) as (st' & lst' & T1 & T2 & T3 & T4 & T5).
      { unfold p1. cbn [p_states]. rewrite app_length. simpl. unfold id in *. lia. }
      exists st', lst'. rewrite Hoth by auto. splits; auto.
  - intros H0. unfold id. rewrite H0. reflexivity.
  - exists st3. split; auto. cbn [s_basis st3]. unfold p3; cbn [p_cfgs].
    assert (Hbo : forall b, In b bp -> In b (all_configs p1)).
    { intros b Hb. eapply (basis_own p1 id st); eauto. }
    split.
    + intros k. rewrite <- (K1 k). rewrite (map_ext_in (ckey (p_cfgs p2)) (ckey (p_cfgs p1))); [tauto|].
      intros b Hb. eapply ex_key; eauto.
    + intros c Hc. destruct (B1 c Hc) as (Q1 & Q2 & Q3). exists c. splits; auto.
      * rewrite <- Q2. eapply ex_key; eauto.
      * rewrite <- Q3. apply (cg_bplp _ _ (ex_grow _ _ _ R6)). apply (iv_range _ I1). auto.
Qed.

(** ** [find_states] *)
Lemma start_basis_spec basis cs : start_basis g = (basis, cs) ->
  getpre basis (mkPst cs []).
Proof.
  unfold start_basis. destruct (wg_start g W) as [Hk _]. rewrite (kind_at_gsym _ _ _ Hk).
  set (f := fun '(basis, cs) r => _).
  assert (Hgen : forall rs basis cs basis' cs', NoDup rs ->
     (forall r, In r rs -> r < List.length (g_rules g) /\ ~ In (r, 0) (map (ckey cs) basis)) ->
     NoDup (map (ckey cs) basis) ->
     (forall c, In c basis -> c < List.length cs /\ kvalid g (ckey cs c) /\ c_fplp (cfg cs c) = [] /\
        c_bplp (cfg cs c) = [] /\ c_fws (cfg cs c) = [0]) ->
     fold_left f rs (basis, cs) = (basis', cs') ->
     NoDup (map (ckey cs') basis') /\
     (forall k, In k (map (ckey cs') basis') <-> In k (map (ckey cs) basis) \/ exists r, In r rs /\ k = (r, 0)) /\
     (forall c, In c basis' -> c < List.length cs' /\ kvalid g (ckey cs' c) /\ c_fplp (cfg cs' c) = [] /\
        c_bplp (cfg cs' c) = [] /\ c_fws (cfg cs' c) = [0])).
  { induction rs as [|r rs IH]; intros b0 c0 b1 c1 Hnd Hr Hnd2 Hb H; cbn [fold_left] in H.
    - inversion H; subst. splits; auto. intros k. split; auto. intros [?|(r & [] & _)]; auto.
    - inversion Hnd as [|? ? Hn Hd]; subst.
      unfold f in H at 2. destruct (add_config c0 b0 r 0) as [[c b'] cs'] eqn:Ea.
      apply add_config_spec in Ea as [(Hin & -> & -> & Hkey)|(-> & -> & -> & Hno)].
      { exfalso. apply (Hr r); [now left|]. rewrite <- Hkey. now apply in_map. }
      set (cs2 := upd _ _ _) in H.
      assert (Hl2 : List.length cs2 = S (List.length c0)) by (unfold cs2; rewrite upd_length, app_length; simpl; lia).
      assert (Hold : forall i, i < List.length c0 -> cfg cs2 i = cfg c0 i).
      { intros i Hi. unfold cs2. rewrite cfg_upd_other by lia. now apply cfg_app_l. }
      assert (Hnew : cfg cs2 (List.length c0) = mkCfg r 0 [0] [] [] false).
      { unfold cs2. rewrite cfg_upd_same by (rewrite app_length; simpl; lia). now rewrite cfg_app_new. }
      assert (Hkn : ckey cs2 (List.length c0) = (r, 0)) by (unfold ckey; now rewrite Hnew).
      assert (Hko : forall i, In i b0 -> ckey cs2 i = ckey c0 i).
      { intros i Hi. unfold ckey. rewrite Hold; auto. now apply Hb. }
      assert (Hm : map (ckey cs2) (b0 ++ [List.length c0]) = map (ckey c0) b0 ++ [(r, 0)]).
      { rewrite map_app. simpl. rewrite Hkn. f_equal. apply map_ext_in. auto. }
      apply IH in H as (H1 & H2 & H3); auto.
      + splits; auto. intros k. rewrite (H2 k), Hm. rewrite in_app_iff. simpl. split.
        * intros [[?|[<-|[]]]|(r' & ? & ->)]; auto; right; eauto.
        * intros [?|(r' & [<-|?] & ->)]; auto. right. eauto.
      + intros r' Hr'. destruct (Hr r' (or_intror Hr')) as [Q1 Q2]. split; auto. rewrite Hm, in_app_iff.
        intros [?|[Heq|[]]]; auto. inversion Heq; subst. auto.
      + rewrite Hm. apply nodup_app_iff. splits; auto.
        * constructor; [auto|constructor].
        * intros k Hk1 [<-|[]]. apply (Hr r); auto. now left.
      + intros c Hc. apply in_app_or in Hc as [Hc|[<-|[]]].
        * destruct (Hb c Hc) as (Q1 & Q2 & Q3). rewrite Hko, Hold by auto. split; [lia|auto].
        * rewrite Hkn, Hnew, Hl2. simpl. splits; auto. split; simpl; [apply Hr; now left|lia]. }
  intros H. apply Hgen in H as (H1 & H2 & H3).
  - constructor; cbn [p_cfgs p_states].
    + constructor; cbn; try (intros; destruct s; discriminate); try (intros; destruct s1; discriminate); try contradiction.
      constructor.
    + intros c Hc. destruct (H3 c Hc) as (Q1 & Q2 & Q3 & _). splits; auto.
    + auto.
    + left. cbn [p_cfgs p_states]. splits; auto.
      * intros k. rewrite (H2 k). simpl. tauto.
      * intros c Hc. destruct (H3 c Hc) as (Q1 & Q2 & Q3 & Q4 & Q5). auto.
  - apply rules_of_nodup.
  - intros r Hr. split; [|auto]. apply in_rules_of in Hr as (ru & Hr & _). apply nth_error_Some. congruence.
  - constructor.
  - contradiction.
Qed.

Theorem find_states_spec fuel p : find_states fuel g fi = GOk p ->
  Inv p /\ 0 < List.length (p_states p) /\ (forall s, s < List.length (p_states p) -> done p s) /\
  (forall r ru X al, nth_error (g_rules g) r = Some ru -> In (X, al) (r_rhs ru) -> X <> g_start g).
Proof.
  unfold find_states. destruct (existsb _ _) eqn:Ee; [discriminate|].
  destruct (start_basis g) as [basis cs] eqn:Es. intros H.
  destruct (get_state fuel g fi basis (mkPst cs [])) as [[t p']| | |] eqn:Eg; try discriminate.
  cbn [gbind] in H. inversion H; subst p'. clear H.
  apply get_state_spec in Eg as [J1 J2 J3 J4 (st & J5 & _)].
  - splits; auto.
    + assert (t < List.length (p_states p)) by (apply nth_error_Some; congruence). lia.
    + intros s Hs. apply J3. simpl. lia.
    + intros r ru X al Hr Hin ->. apply not_true_iff_false in Ee. apply Ee.
      apply existsb_exists. exists ru. split; [eapply nth_error_In; eauto|].
      apply existsb_exists. exists (g_start g, al). split; auto. apply Nat.eqb_refl.
  - now apply start_basis_spec.
Qed.
End Dfs.
