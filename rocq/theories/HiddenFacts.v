(** Where there is at most one candidate action and every symbol derives something, there is no
    hidden left recursion (C06, C45): the parser would have to guess how many empty symbols
    stand in front. *)
From Verif Require Import Base Syntax BaseFacts FrontEnd First States Spec WfGrammar FirstFacts
  ClosureFacts StatesFacts DfsFacts FollowFacts AutoFacts LalrFacts Actions ActFacts AbsFacts HaltFacts LimitFacts.

Section Hidden.
Context (g : grammar) (W : wf_grammar g) (p : pst) (A : Aut g p).
Notation edge := (edge g p). Notation item := (item p). Notation look := (look p).
Notation raw := (raw g p). Notation rlen := (rlen g).
Notation cfg := (list (nat * tree unit)).
Notation top := (top unit). Notation aspine := (aspine g p unit). Notation ared := (ared g p unit).
Notation halts := (halts g p). Notation reds := (reds g p).

Lemma reds_len b n c c' : reds b n c c' -> List.length c' <= List.length c + n.
Proof.
  induction 1 as [c|n c c' c'' R H IH]; [lia|]. inversion R; subst. cbn [List.length] in IH. rewrite app_length. lia.
Qed.

(** [m]: the lookahead begins what [X] derives; otherwise [X] is empty and the lookahead follows it. *)
Definition cond (m : bool) (b X : nat) : Prop := if m then first g b X else nullable g X.
Definition ready (m : bool) (b X : nat) (stk : cfg) : Prop :=
  exists k, item (top stk) k /\ kpost g k = Some X /\ cond m b X /\
    (m = false -> forall q, In q (rules_of g X) -> look (top stk) (q, 0) b).
Definition lead (m f : bool) (X Y : nat) : Prop :=
  exists r ru front al rear, nth_error (g_rules g) r = Some ru /\ r_lhs ru = X /\ r_rhs ru = front ++ (Y, al) :: rear /\
    nullable_all g (map fst front) /\ f = match front with [] => false | _ => true end /\ (m = false -> nullable_all g (map fst rear)).
Inductive leads (m : bool) : bool -> nat -> nat -> Prop :=
| le_1 f X Y : lead m f X Y -> leads m f X Y
| le_S f f' X Y Z : leads m f X Y -> lead m f' Y Z -> leads m (f || f') X Z.

Lemma first_behind b Xs Ys : nullable_all g Xs -> first_all g b Ys -> first_all g b (Xs ++ Ys).
Proof. intros H HY. rewrite nullable_all_in in H. induction H; cbn [app]; auto. now apply f_skip. Qed.
Lemma null_app Xs Ys : nullable_all g Xs -> nullable_all g Ys -> nullable_all g (Xs ++ Ys).
Proof. rewrite !nullable_all_in. intros. apply Forall_app. auto. Qed.

Lemma lead_cond m f b X Y : lead m f X Y -> cond m b Y -> cond m b X.
Proof.
  intros (r & ru & front & al & rear & Hr & <- & E & Hf & _ & Hm) HY. destruct m; cbn [cond] in *.
  - apply (f_rule g b r ru Hr). rewrite E, map_app. apply first_behind; auto. cbn [map fst]. now apply f_here.
  - apply (n_rule g r ru Hr). rewrite E, map_app. apply null_app; auto. cbn [map fst]. constructor; auto.
Qed.
Lemma leads_cond m f b X Y : leads m f X Y -> cond m b Y -> cond m b X.
Proof. induction 1; intros; eauto using lead_cond. Qed.

Lemma front_pass m b r : b < g_nterm g -> forall front d al Y rear stk Xs, skipn d (r_rhs (grule g r)) = front ++ (Y, al) :: rear ->
  nullable_all g (map fst front) -> cond m b Y -> (m = false -> nullable_all g (map fst rear) /\ look (top stk) (r, d) b) ->
  aspine stk Xs -> item (top stk) (r, d) ->
  exists st1 n Ys, reds b n stk (st1 ++ stk) /\ aspine (st1 ++ stk) Ys /\ List.length st1 = List.length front /\ ready m b Y (st1 ++ stk).
Proof.
  intros Hb. induction front as [|[X al'] front IH]; intros d al Y rear stk Xs E Hf HY Hm Hs Hi; cbn [app] in E; apply skip_S in E as [En Es].
  - exists [], 0, Xs. cbn [app]. splits; auto; [constructor|]. exists (r, d).
    assert (HX : kpost g (r, d) = Some Y) by (unfold kpost; cbn [fst snd]; now rewrite En). splits; auto. intros Em q Hq.
    destruct (Hm Em) as [Hn Hl]. apply (look_of g p A). eapply sp_null; [apply (spread_of g p A); exact Hl|exists Y; auto|]. unfold krest; cbn [fst snd]. now rewrite Es.
  - cbn [map fst] in Hf. inversion Hf as [|X0 Xs0 N1 N2]; subst.
    assert (HX : kpost g (r, d) = Some X) by (unfold kpost; cbn [fst snd]; now rewrite En).
    assert (HR : krest g (r, d) = map fst front ++ Y :: map fst rear) by (unfold krest; cbn [fst snd]; now rewrite Es, map_app).
    destruct (pass_null g W p A X b stk Xs (r, d)) as (q & t & n & Hq & Hred); auto.
    { intros q Hq. apply (look_of g p A). destruct m; cbn [cond] in HY.
      - eapply sp_first; eauto; [exists X; auto|]. rewrite HR. apply first_behind; auto. now apply f_here.
      - destruct (Hm eq_refl) as [Hn Hl]. eapply sp_null; [apply (spread_of g p A); exact Hl|exists X; auto|]. rewrite HR. apply null_app; auto. constructor; auto. }
    destruct (IH (S d) al Y rear ((q, t) :: stk) (X :: Xs)) as (st1 & n' & Ys & R & Hs' & L & Hrd); auto.
    + intros Em. destruct (Hm Em) as [Hn Hl]. split; auto. cbn [AbsFacts.top]. apply (look_of g p A). change (r, S d) with (kadv (r, d)).
      eapply sp_goto; [apply (spread_of g p A); exact Hl|exact HX|exact Hq].
    + now constructor.
    + cbn [AbsFacts.top]. change (r, S d) with (kadv (r, d)). eapply (au_goto g p A); eauto.
    + exists (st1 ++ [(q, t)]), (n + n'), Ys. rewrite <- !app_assoc. cbn [app]. splits; auto.
      * exact (reds_trans g p b _ _ _ Hred _ _ R).
      * rewrite app_length. cbn [List.length]. lia.
Qed.

Lemma lead_pass m f b X Y stk Xs : b < g_nterm g -> lead m f X Y -> cond m b Y -> aspine stk Xs -> ready m b X stk ->
  exists st1 n Ys, reds b n stk (st1 ++ stk) /\ aspine (st1 ++ stk) Ys /\ (f = true -> 1 <= List.length st1) /\ ready m b Y (st1 ++ stk).
Proof.
  intros Hb (r & ru & front & al & rear & Hr & Hl & E & Hf & Ef & Hm) HY Hs (k & Hi & HX & _ & Hk).
  assert (Hin : In r (rules_of g X)) by (apply in_rules_of; exists ru; auto).
  destruct (front_pass m b r Hb front 0 al Y rear stk Xs) as (st1 & n & Ys & R & Hs' & L & Hrd); auto.
  - rewrite (grule_nth _ _ _ Hr), E. reflexivity.
  - apply (au_close g p A _ k); auto. exists X. auto.
  - exists st1, n, Ys. splits; auto. intros ->. rewrite L. destruct front; [discriminate|]. cbn [List.length]. lia.
Qed.

Lemma leads_pass m f b X Y : leads m f X Y -> forall stk Xs, b < g_nterm g -> cond m b Y -> aspine stk Xs -> ready m b X stk ->
  exists st1 n Ys, reds b n stk (st1 ++ stk) /\ aspine (st1 ++ stk) Ys /\ (f = true -> 1 <= List.length st1) /\ ready m b Y (st1 ++ stk).
Proof.
  induction 1 as [f X Y H|f f' X Y Z H IH H']; intros stk Xs Hb HZ Hs Hr; [eapply lead_pass; eauto|].
  destruct (IH stk Xs Hb (lead_cond _ _ _ _ _ H' HZ) Hs Hr) as (s1 & n1 & Y1 & R1 & S1 & L1 & Q1).
  destruct (lead_pass m f' b Y Z (s1 ++ stk) Y1 Hb H' HZ S1 Q1) as (s2 & n2 & Y2 & R2 & S2 & L2 & Q2).
  exists (s2 ++ s1), (n1 + n2), Y2. rewrite <- app_assoc. splits; auto; [exact (reds_trans g p b _ _ _ R1 _ _ R2)|].
  rewrite app_length, orb_true_iff. intros [E|E]; [specialize (L1 E)|specialize (L2 E)]; lia.
Qed.

Lemma leads_again m b Z : leads m true Z Z -> forall i stk Xs, b < g_nterm g -> aspine stk Xs -> ready m b Z stk ->
  exists st1 n Ys, reds b n stk (st1 ++ stk) /\ aspine (st1 ++ stk) Ys /\ i <= List.length st1 /\ ready m b Z (st1 ++ stk).
Proof.
  intros HL. induction i as [|i IH]; intros stk Xs Hb Hs Hr; [exists [], 0, Xs; cbn [app]; splits; [constructor|auto|cbn; lia|auto]|].
  destruct (IH stk Xs Hb Hs Hr) as (s1 & n1 & Y1 & R1 & S1 & L1 & Q1).
  assert (HZ : cond m b Z) by (destruct Hr as (k & _ & _ & HZ & _); auto).
  destruct (leads_pass m true b Z Z HL (s1 ++ stk) Y1 Hb HZ S1 Q1) as (s2 & n2 & Y2 & R2 & S2 & L2 & Q2).
  exists (s2 ++ s1), (n1 + n2), Y2. rewrite <- app_assoc. splits; auto; [exact (reds_trans g p b _ _ _ R1 _ _ R2)|].
  rewrite app_length. specialize (L2 eq_refl). lia.
Qed.

Hypotheses (U : single g p) (HP : all_derive g)
  (HR : forall r, r < List.length (g_rules g) -> exists s la, raw s la (Reduce r)).

Lemma never_again m b Z stk Xs n : leads m true Z Z -> b < g_nterm g -> aspine stk Xs -> ready m b Z stk -> halts b n stk -> False.
Proof.
  intros HL Hb Hs Hr Hh. destruct (leads_again m b Z HL (S n) stk Xs Hb Hs Hr) as (st1 & i & Ys & R & _ & L & _).
  pose proof (reds_len _ _ _ _ R) as Hlen. rewrite app_length in Hlen. destruct (halts_reds g p A U _ _ _ _ R _ Hh) as (m' & E & _). lia.
Qed.

(** A symbol that leads to itself stands in a rule, and that rule is used somewhere. *)
Lemma leads_last m f X Y : leads m f X Y -> exists f' X', lead m f' X' Y.
Proof. destruct 1; eauto. Qed.
Lemma lead_used m f X Y : lead m f X Y -> exists gamma s r d ru al la, path g p gamma s /\ nth_error (g_rules g) r = Some ru /\ nth_error (r_rhs ru) d = Some (Y, al) /\
  lr1 g gamma r d la /\ la < g_nterm g /\ (m = false -> nullable_all g (map fst (skipn (S d) (r_rhs ru)))).
Proof.
  intros (r & ru & front & al & rear & Hr & _ & E & _ & _ & Hm).
  assert (Hlt : r < List.length (g_rules g)) by (apply nth_error_Some; congruence).
  destruct (HR r Hlt) as (s & la & Hraw). assert (Hl : la < g_nterm g /\ look s (r, rlen r) la) by (inversion Hraw; auto). destruct Hl as [Hla Hlk].
  apply (au_look g p A) in Hlk. destruct (spread_lr1 g p A _ _ _ Hlk) as (gamma & Pg & L1). cbn [fst snd] in L1.
  destruct (lr1_halts g W p A _ _ _ _ L1 Hla) as (gb & Eg & L0 & _). rewrite (grule_nth _ _ _ Hr) in Eg. unfold ActFacts.rlen in Eg. rewrite (grule_nth _ _ _ Hr), firstn_all in Eg.
  rewrite E, map_app, app_assoc in Eg. rewrite Eg in Pg. destruct (path_prefix g p _ _ _ Pg) as (s' & P').
  exists (gb ++ map fst front), s', r, (List.length front), ru, al, la. splits; auto.
  - rewrite E, nth_error_app2, Nat.sub_diag; auto.
  - replace front with (firstn (List.length front) (r_rhs ru)) at 1 by (rewrite E, firstn_app, Nat.sub_diag, firstn_all; cbn [firstn]; apply app_nil_r).
    apply (lr1_over g gb r la ru Hr L0). rewrite E, app_length. lia.
  - intros Em. rewrite E. rewrite skipn_app, skipn_all2 by lia. replace (S (List.length front) - List.length front) with 1 by lia. cbn. auto.
Qed.

Lemma leads_false_none Z : nullable g Z -> ~ leads false true Z Z.
Proof.
  intros HZ HL. destruct (leads_last _ _ _ _ HL) as (f' & X' & H'). destruct (lead_used _ _ _ _ H') as (gamma & s & r & d & ru & al & b & Hp & Hr & Hn & L1 & Hb & Hm).
  specialize (Hm eq_refl). destruct (path_stack g p _ _ Hp) as (stk & Hs & Et).
  assert (HX : kpost g (r, d) = Some Z) by (unfold kpost; cbn [fst snd]; now rewrite (grule_nth _ _ _ Hr), Hn).
  assert (Hi : item (top stk) (r, d)) by (rewrite Et; eapply lr0_item; eauto; eapply lr1_lr0; eauto).
  pose proof (lr1_spread g p A _ _ _ _ L1 _ Hp) as Sp.
  assert (HK : forall q, In q (rules_of g Z) -> look (top stk) (q, 0) b).
  { intros q Hq. rewrite Et. apply (look_of g p A). eapply sp_null; [exact Sp|exists Z; auto|]. unfold krest; cbn [fst snd]. now rewrite (grule_nth _ _ _ Hr). }
  assert (HRd : ready false b Z stk) by (exists (r, d); splits; auto).
  assert (HZs : Z <> g_start g) by (apply (au_nostart g p A r ru Z al Hr); eapply nth_error_In; eauto).
  destruct (pass_null g W p A Z b stk (rev gamma) (r, d) HZ Hb Hs Hi HX HK) as (q & t & n & Hq & Hred).
  assert (exists r' ru', nth_error (g_rules g) r' = Some ru' /\ r_lhs ru' = Z) as (r' & ru' & Hr' & Hl').
  { inversion HZ as [r' ru' Hr' _ E]; subst. eauto. }
  assert (L1' : lr1 g gamma r' 0 b) by (eapply lr1_null; eauto).
  destruct (lr1_halts g W p A _ _ _ _ L1' Hb) as (g3 & E3 & _ & Hc). cbn [firstn map] in E3. rewrite app_nil_r in E3. subst g3.
  rewrite (grule_nth _ _ _ Hr'), Hl' in Hc. destruct Hc as [[? _]|[_ Hc]]; [contradiction|]. destruct (Hc stk q t Hs Hq) as [m Hm'].
  exact (never_again false b Z stk _ _ HL Hb Hs HRd (reds_halts g p _ _ _ _ _ Hred Hm')).
Qed.

Lemma leads_true_none b Z : first g b Z -> b < g_nterm g -> ~ leads true true Z Z.
Proof.
  intros HZ Hb HL. destruct (leads_last _ _ _ _ HL) as (f' & X' & H'). destruct (lead_used _ _ _ _ H') as (gamma & s & r & d & ru & al & la & Hp & Hr & Hn & L1 & _ & _).
  destruct (path_stack g p _ _ Hp) as (stk & Hs & Et).
  assert (HX : kpost g (r, d) = Some Z) by (unfold kpost; cbn [fst snd]; now rewrite (grule_nth _ _ _ Hr), Hn).
  assert (Hi : item (top stk) (r, d)) by (rewrite Et; eapply lr0_item; eauto; eapply lr1_lr0; eauto).
  assert (HRd : ready true b Z stk) by (exists (r, d); splits; auto; discriminate).
  destruct (proj1 (machine_first g W p A b Hb) Z HZ stk _ (r, d) Hs Hi HX) as [n Hn'].
  exact (never_again true b Z stk _ _ HL Hb Hs HRd Hn').
Qed.

Lemma gpath_true f X Y : gpath g f X Y -> leads true f X Y.
Proof.
  assert (H1 : forall f X Y, glead g f X Y -> lead true f X Y).
  { intros f0 X0 Y0 (r & ru & front & al & rear & H1 & H2 & H3 & H4 & H5). exists r, ru, front, al, rear. splits; auto. discriminate. }
  induction 1; [apply le_1|eapply le_S]; eauto.
Qed.

Lemma gpath_cases f X Y : gpath g f X Y -> nullable g Y -> (leads false f X Y /\ nullable g X) \/ exists b, first g b X /\ is_term g b.
Proof.
  assert (HD : forall f X Y, glead g f X Y -> nullable g Y -> (lead false f X Y /\ nullable g X) \/ exists b, first g b X /\ is_term g b).
  { intros f0 X0 Y0 (r & ru & front & al & rear & Hr & Hl & E & Hf & Ef) HY.
    destruct (all_derive_list g r ru (S (List.length front)) HP Hr) as [us Hus].
    replace (skipn (S (List.length front)) (r_rhs ru)) with rear in Hus.
    2:{ rewrite E, skipn_app, skipn_all2 by lia. replace (S (List.length front) - List.length front) with 1 by lia. reflexivity. }
    destruct (direct_first g unit) as [_ DF]. destruct (DF _ _ Hus) as [D1 D2]. destruct (flat_map yield us) as [|[a u] w] eqn:Ey.
    - left. assert (HL : lead false f0 X0 Y0) by (exists r, ru, front, al, rear; splits; auto). split; auto. exact (lead_cond false f0 0 X0 Y0 HL HY).
    - right. destruct (D2 _ _ _ eq_refl) as [Hfa Ht]. exists a. split; auto. rewrite <- Hl. apply (f_rule g a r ru Hr). rewrite E, map_app. apply first_behind; auto.
      cbn [map fst]. now apply f_skip. }
  induction 1 as [f X Y H|f f' X Y Z H IH H']; intros HZ.
  - destruct (HD _ _ _ H HZ) as [[HL HN]|HB]; auto. left. split; auto. now constructor.
  - destruct (HD _ _ _ H' HZ) as [[HL HN]|(b & Hb & Ht)].
    + destruct (IH HN) as [[HL' HN']|HB]; auto. left. split; auto. eapply le_S; eauto.
    + right. exists b. split; auto. exact (leads_cond true f b X Y (gpath_true _ _ _ H) Hb).
Qed.

Theorem hidden_never Z : ~ gpath g true Z Z.
Proof.
  intros H. assert (HT : exists tr : tree unit, derives g (direct g) Z tr).
  { destruct (leads_last _ _ _ _ (gpath_true _ _ _ H)) as (f' & X' & (r & ru & front & al & rear & Hr & _ & E & _)).
    apply (HP r ru Z al Hr). rewrite E. apply in_or_app. right. now left. }
  destruct HT as [tr Ht]. destruct (proj1 (direct_first g unit) _ _ Ht) as [D1 D2].
  assert (HF : forall b, first g b Z -> is_term g b -> False).
  { intros b Hf Hb. apply (leads_true_none b Z Hf); [now apply is_term_lt|]. now apply gpath_true. }
  destruct (yield tr) as [|[a u] w]; [|destruct (D2 _ _ _ eq_refl); eauto].
  destruct (gpath_cases _ _ _ H (D1 eq_refl)) as [[HL HN]|(b & Hf & Hb)]; [exact (leads_false_none Z HN HL)|eauto].
Qed.
End Hidden.
