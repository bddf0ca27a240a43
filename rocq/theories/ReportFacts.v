(** The report of the states tells the truth (C47). *)
From Coq Require Import DecimalString Permutation.
From Verif Require Import Base Syntax BaseFacts FrontEnd First States Actions Tables Spec WfGrammar FirstFacts FrontFacts BuildFacts DeclSpec DeclFacts DeclMore GramFacts Names
  DfsFacts ClosureFacts StatesFacts AutoFacts LalrFacts ActFacts GroupFacts TypeDecl FaultSpec FaultDuel FaultAct FaultBack Report ReportSpec ReportText ReportActs FaultFacts.
Open Scope string_scope. Open Scope nat_scope. Open Scope list_scope.

Section State.
Context (g : grammar) (W : wf_grammar g) (p : pst) (A : Aut g p).
Hypothesis OW : forall i u v, some_prec g (i, u) -> some_prec g (i, v) -> u = v.
Hypothesis SP : forall X, X < List.length (g_syms g) -> spaceless (gname g X).
Hypothesis MN : forall X ms m, kind_at g X = Some (KMulti ms) -> In m ms -> gname g m <> "".
Hypothesis NE : forall X, X < List.length (g_syms g) -> (forall ms, kind_at g X <> Some (KMulti ms)) -> gname g X <> "".
Hypothesis UQ : forall X Y, X < List.length (g_syms g) -> Y < List.length (g_syms g) -> gname g X = gname g Y -> gname g X <> "" -> X = Y.
Context (gamma : list nat) (s : nat) (Hg : path g p gamma s) (st : state) (Hst : nth_error (p_states p) s = Some st) (l0 l' : list action) (n' : nat).
Hypothesis HI : forall la d, In (mkAct la d) l0 <-> raw g p s la d.
Hypothesis HS : sorted_by action_less l0.
Hypothesis HR : forall la r, ~ before l0 (mkAct la (Reduce r)) (mkAct la (Reduce r)).
Hypothesis HSh : forall la t, before l0 (mkAct la (Shift t)) (mkAct la (Shift t)) <-> exists X ms, edge g p s X t /\ kind_at g X = Some (KMulti ms) /\ 2 <= count_occ Nat.eq_dec ms la.
Hypothesis ER : resolve_all g (List.length l0) l0 0 = (l', n').

Lemma kind_lt X k : kind_at g X = Some k -> X < List.length (g_syms g).
Proof. unfold kind_at. destruct (nth_error (g_syms g) X) eqn:E; [intros _; apply nth_error_Some; congruence|discriminate]. Qed.
Lemma named_kind X k : kind_at g X = Some k -> (forall ms, k <> KMulti ms) -> named g X.
Proof. intros K N. pose proof (kind_lt _ _ K) as L. split; auto. apply NE; auto. intros ms E. rewrite K in E. injection E as E. now apply (N ms). Qed.
Lemma named_raw la d : raw g p s la d -> named g la.
Proof.
  intros R. inversion R as [X t m E C|r b _ Hb|Hs]; subst.
  - destruct (edge_sym g W p A _ _ _ E) as (HX & _). unfold covers in C. destruct (kind_at g X) as [[| |ms]|] eqn:K.
    + subst X. eapply named_kind; eauto. discriminate.
    + subst X. eapply named_kind; eauto. discriminate.
    + split; [apply (wg_multi g W X ms la K C)|eauto].
    + unfold kind_at in K. destruct (nth_error (g_syms g) X) eqn:EX; [discriminate|]. apply nth_error_None in EX. lia.
  - assert (L : la < List.length (g_syms g)) by (pose proof (wg_dflt_range g W); lia). eapply (named_kind la KTerm); [now apply (wg_term g W)|discriminate].
  - eapply named_kind; [apply (wg_start g W)|discriminate].
Qed.
Lemma named_term a : a < g_nterm g -> named g a /\ kind_at g a <> Some KNonTerm.
Proof.
  intros H. assert (L : a < List.length (g_syms g)) by (pose proof (wg_dflt_range g W); lia). assert (K : kind_at g a = Some KTerm) by now apply (wg_term g W).
  split; [eapply named_kind; eauto; discriminate|congruence].
Qed.
Lemma offered_term a m : offers g gamma a m -> kind_at g a <> Some KNonTerm.
Proof.
  intros H K. inversion H as [r ru d X al _ _ _ HM|gamma' r ru _ _ _ HL]; subst.
  - destruct HM as [[_ E]|(ms & KX & HM)]; [congruence|]. destruct (wg_multi g W X ms a KX HM) as (_ & _ & Hk). congruence.
  - apply (nonterm_ge g W) in K. lia.
Qed.

(** The words that follow the name in the line of an action *)
Definition tell (d : detail) : list string :=
  match d with
  | Shift s => ["shift"; num s] | Reduce r => ["reduce"; num r] | Accept => ["accept"] | Error => ["error"]
  | SRConflict r | RRConflict r => "reduce" :: num r :: conflict_mark | SSConflict s => "shift" :: num s :: conflict_mark
  | SHResolved s => "shift" :: num s :: dropped_mark | RDResolved r => "reduce" :: num r :: dropped_mark | NotUsed => []
  end.
Lemma line_of la d : In (mkAct la d) l' -> exists l, In l (each_some (action_line g) l') /\ words l = gname g la :: tell d.
Proof.
  intros H. destruct (fate_from g W p A OW s l0 l' n' HI HSh ER la d H) as (d0 & R & F & _). pose proof (named_raw _ _ R) as HN.
  destruct (action_line g (mkAct la d)) as [l|] eqn:E.
  - exists l. split; [unfold each_some; apply in_flat_map; exists (mkAct la d); split; auto; rewrite E; now left|]. exact (words_act g SP (mkAct la d) l HN E).
  - unfold action_line in E. cbn in E. destruct d; try discriminate. exfalso. destruct F as [<-|F]; [inversion R|]. destruct d0; try contradiction; destruct F as [F|[F|F]]; try discriminate; destruct F; discriminate.
Qed.
Lemma of_line l : In l (each_some (action_line g) l') -> exists la d, In (mkAct la d) l' /\ named g la /\ words l = gname g la :: tell d.
Proof.
  intros H. unfold each_some in H. apply in_flat_map in H as ([la d] & H & HL). destruct (action_line g (mkAct la d)) as [l1|] eqn:E; [|contradiction]. destruct HL as [<-|[]].
  destruct (fate_from g W p A OW s l0 l' n' HI HSh ER la d H) as (d0 & R & _). pose proof (named_raw _ _ R) as HN. exists la, d. splits; auto. exact (words_act g SP (mkAct la d) l1 HN E).
Qed.
Lemma line_iff X w : named g X -> (exists l, In l (each_some (action_line g) l') /\ words l = gname g X :: w) <-> exists d, In (mkAct X d) l' /\ tell d = w.
Proof.
  intros [LX NX]. split.
  - intros (l & H & E). destruct (of_line l H) as (la & d & H1 & [L N] & E1). rewrite E in E1. injection E1 as E1 ->. assert (la = X) by (symmetry; now apply UQ). subst la. eauto.
  - intros (d & H & <-). destruct (line_of X d H) as (l & H1 & H2). eauto.
Qed.
Lemma tell_shift d t : tell d = ["shift"; num t] -> d = Shift t.
Proof. destruct d; cbn; intros H; try discriminate. injection H as H. apply num_inj in H. congruence. Qed.
Lemma tell_reduce d r : tell d = ["reduce"; num r] -> d = Reduce r.
Proof. destruct d; cbn; intros H; try discriminate. injection H as H. apply num_inj in H. congruence. Qed.
Lemma tell_mark d w n : tell d = w :: n :: conflict_mark -> mark (mkAct 0 d) = 1.
Proof. destruct d; cbn; intros H; try discriminate; auto. Qed.
Lemma mark_tell la d : mark (mkAct la d) = 1 -> exists w n, tell d = w :: n :: conflict_mark.
Proof. destruct d; cbn; intros H; try discriminate; eauto. Qed.

Lemma path_next X t : path g p (gamma ++ [X]) t <-> edge g p s X t.
Proof.
  split; [|intros E; econstructor; eauto]. intros H. apply path_inv_snoc in H as (s' & H1 & H2). now rewrite (path_fun g p A _ _ _ Hg H1).
Qed.
Lemma shift_at a X t : offers g gamma a (MShift X) -> path g p (gamma ++ [X]) t -> raw g p s a (Shift t).
Proof.
  intros HO Ht. apply path_next in Ht. destruct (shift_raw g p A gamma s a X Hg HO) as (t' & E & R). now rewrite (au_fun g p A _ _ _ _ Ht E).
Qed.
Lemma reduce_at a r : offers g gamma a (MReduce r) -> raw g p s a (Reduce r).
Proof. intros HO. eapply reduce_raw_at; eauto. Qed.

Lemma item_cfg r d : lr0 g gamma r d <-> exists c, In c (s_configs st) /\ c_rule (cfg (p_cfgs p) c) = r /\ c_dot (cfg (p_cfgs p) c) = d.
Proof.
  split.
  - intros H. destruct (lr0_item g p A _ _ _ H s Hg) as (st' & c & H1 & H2 & H3). rewrite Hst in H1. injection H1 as <-. unfold ckey in H3. injection H3 as H3 H4. eauto.
  - intros (c & H1 & <- & <-). apply (item_lr0 g p A gamma s (ckey (p_cfgs p) c) Hg). exists st, c. auto.
Qed.
Lemma item_line_words c : In c (s_configs st) -> words (item_line g (cfg (p_cfgs p) c)) = item_words g (c_rule (cfg (p_cfgs p) c)) (c_dot (cfg (p_cfgs p) c)).
Proof.
  intros H. destruct (au_valid g p A s (ckey (p_cfgs p) c)) as [V1 V2]; [exists st, c; auto|]. apply words_item; auto.
Qed.

Theorem section_truth i : describes g (path g p) gamma (state_section g (p_cfgs p) i (st_set_actions l' st)).
Proof.
  constructor; cbn [state_section k_items k_acts s_configs s_actions st_set_actions].
  - intros r d H. apply item_cfg in H as (c & H & <- & <-). eexists. split; [apply in_map_iff; exists c; split; [reflexivity|exact H]|]. now apply item_line_words.
  - intros l H. apply in_map_iff in H as (c & <- & H). eexists. eexists. split; [apply item_cfg; eauto|]. now apply item_line_words.
  - intros a l w Ha Hl E. destruct (named_term a Ha) as [HN K]. destruct (proj1 (line_iff a w HN)) as (d & Hd & <-); [eauto|]. destruct (fate_from g W p A OW s l0 l' n' HI HSh ER a d Hd) as (d0 & R & F & _).
    assert (Ns : a <> g_start g) by (intros ->; apply K, (wg_start g W)). pose proof (raw_sr g p s a d0 Ns R) as Sd. pose proof (raw_offers g W p A gamma s a d0 Hg K R Sd) as HO. destruct d0 as [t| |r| | | | | | |]; try contradiction.
    + destruct HO as (X & EX & _ & OX). assert (HP : path g p (gamma ++ [X]) t) by now apply path_next. destruct F as [->|[->|[->|(-> & r & Rr & T)]]].
      1,2,3: right; left; exists X, t; eexists; splits; [reflexivity|auto|auto|auto].
      right. right. split; auto. exists X, r. splits; auto. exact (raw_offers g W p A gamma s a _ Hg K Rr Logic.I).
    + left. exists r. destruct F as [->|[->|[->| ->]]]; eexists; splits; try reflexivity; auto.
  - intros a r HO. pose proof (offered_term _ _ HO) as K. apply reduce_at in HO. destruct (fate_of g W p A OW s l0 l' n' HI HSh ER a _ HO) as (d & Hd & F & _). destruct (line_of a d Hd) as (l & Hl & E).
    exists l. destruct F as [->|[->|[->| ->]]]; eexists; splits; eauto; exact E.
  - intros a X t HO Ht. pose proof (offered_term _ _ HO) as K. pose proof (shift_at a X t HO Ht) as R. destruct (fate_of g W p A OW s l0 l' n' HI HSh ER a _ R) as (d & Hd & F & _). destruct (line_of a d Hd) as (l & Hl & E).
    exists l. destruct F as [->|[->|[->|(-> & r & Rr & T)]]].
    1,2,3: eexists; split; [exact Hl|left; exact E].
    exists []. split; auto. right. split; auto. exists r. split; auto. exact (raw_offers g W p A gamma s a _ Hg K Rr Logic.I).
  - intros a Ha. destruct (named_term a Ha) as [HN K]. rewrite <- (marked g W p A OW s l0 l' n' HI HS HR HSh ER gamma a Hg K). split.
    + intros (l & w & n & Hl & E). destruct (proj1 (line_iff a (w :: n :: conflict_mark) HN)) as (d & Hd & T); [eauto|]. exists d. split; auto. exact (tell_mark _ _ _ T).
    + intros (d & Hd & M). apply mark_tell in M as (w & n & T). destruct (proj2 (line_iff a (w :: n :: conflict_mark) HN)) as (l & Hl & E); [eauto|]. exists l, w, n. auto.
  - intros a r Ha NC. destruct (named_term a Ha) as [HN K]. rewrite (line_iff a ["reduce"; num r] HN). split.
    + intros (d & Hd & T). apply tell_reduce in T. subst d. destruct (fate_from g W p A OW s l0 l' n' HI HSh ER a _ Hd) as (d0 & R & F & _).
      assert (d0 = Reduce r). { destruct F as [->|F]; auto. destruct d0; try contradiction; destruct F as [F|[F|F]]; try discriminate; destruct F; discriminate. } subst d0.
      destruct (winner g W p A OW s l0 l' n' HI HS HR HSh ER gamma a _ Hg K NC R) as (c & Rc & Sc & _ & HB & HU). rewrite <- (HU _ Hd Logic.I) in *. split; [exact (raw_offers g W p A gamma s a _ Hg K R Logic.I)|].
      intros [X|q] HO N.
      * destruct (shift_raw g p A gamma s a X Hg HO) as (t & _ & Rt). destruct (HB _ Rt) as [|(i0 & u & j & v & P1 & P2 & P3)]; [discriminate|]. exists i0, j, u, v. auto.
      * apply reduce_at in HO. destruct (HB _ HO) as [E|(i0 & u & j & v & P1 & P2 & P3)]; [congruence|]. exists i0, j, u, v. auto.
    + intros [HO HP]. apply reduce_at in HO as R. destruct (winner g W p A OW s l0 l' n' HI HS HR HSh ER gamma a _ Hg K NC R) as (c & Rc & Sc & Hc & HB & HU). exists (Reduce r). split; auto.
      destruct (HB _ R) as [->|(i0 & u & j & v & P1 & P2 & P3)]; auto. exfalso. pose proof (raw_offers g W p A gamma s a _ Hg K Rc Sc) as OC. destruct c as [t| |q| | | | | | |]; try contradiction.
      * destruct OC as (X & _ & _ & OX). destruct (HP _ OX ltac:(discriminate)) as (k1 & k2 & u' & v' & Q1 & Q2 & Q3). cbn in P1, P2, Q2. rewrite P2 in Q1. rewrite P1 in Q2. injection Q1 as <- <-. injection Q2 as <- <-. cbn in P3.
        destruct P3 as [P3|[-> P3]]; destruct Q3 as [Q3|[Q4 Q3]]; try lia. contradiction.
      * destruct (Nat.eq_dec q r) as [->|Nq]; [destruct P3 as [P3|[_ [[P3 _]|[P3 _]]]]; try lia; cbn in P1, P2; rewrite P1 in P2; injection P2 as <- <-; lia|].
        destruct (HP _ OC ltac:(congruence)) as (k1 & k2 & u' & v' & Q1 & Q2 & Q3). cbn in P1, P2, Q2. rewrite P2 in Q1. rewrite P1 in Q2. injection Q1 as <- <-. injection Q2 as <- <-. cbn in P3.
        destruct P3 as [P3|[-> P3]]; destruct Q3 as [Q3|[Q4 Q3]]; try lia. assert (u = v) by (apply (OW j); right; eauto). subst v. destruct P3 as [[L1 E1]|[L1 E1]], Q3 as [[L2 E2]|[L2 E2]]; try lia; congruence.
  - intros a X t NC HO Ht. pose proof (offered_term _ _ HO) as K. pose proof (shift_at a X t HO Ht) as R. pose proof (named_raw _ _ R) as HN. rewrite (line_iff a ["shift"; num t] HN).
    destruct (winner g W p A OW s l0 l' n' HI HS HR HSh ER gamma a _ Hg K NC R) as (c & Rc & Sc & Hc & HB & HU). split.
    + intros (d & Hd & T) r HOr. apply tell_shift in T. subst d. rewrite <- (HU _ Hd Logic.I) in *. apply reduce_at in HOr. destruct (HB _ HOr) as [|(i0 & u & j & v & P1 & P2 & P3)]; [discriminate|].
      exists j, i0, v, u. cbn in P1, P2, P3. splits; auto. destruct P3 as [P3|[-> P3]]; auto.
    + intros HP. exists (Shift t). split; auto. destruct (HB _ R) as [->|(i0 & u & j & v & P1 & P2 & P3)]; auto. exfalso. pose proof (raw_offers g W p A gamma s a _ Hg K Rc Sc) as OC. destruct c as [t'| |q| | | | | | |]; try contradiction.
      * cbn in P1, P2. rewrite P1 in P2. injection P2 as <- <-. destruct P3 as [P3|[_ P3]]; [lia|contradiction].
      * destruct (HP _ OC) as (k1 & k2 & u' & v' & Q1 & Q2 & Q3). cbn in P1, P2, P3. rewrite P1 in Q1. rewrite P2 in Q2. injection Q1 as <- <-. injection Q2 as <- <-. destruct P3 as [P3|[-> P3]]; destruct Q3 as [Q3|[Q4 Q3]]; try lia. contradiction.
  - intros X t K NS. pose proof (named_kind X _ K ltac:(discriminate)) as HN. rewrite (line_iff X ["shift"; num t] HN), path_next. split.
    + intros (d & Hd & T). apply tell_shift in T. subst d. destruct (fate_from g W p A OW s l0 l' n' HI HSh ER X _ Hd) as (d0 & R & _ & F). rewrite <- (F K) in R. pose proof (shift_nonterm g W p _ _ _ R K) as E. split; auto.
      destruct (au_edge g p A _ _ _ E) as (_ & k & Hi & HX). destruct (nth_kpost g k X) as (ru & al & R1 & R2 & _); auto; [eapply (au_valid g p A); eauto|]. exists (fst k), ru, (snd k), al. splits; auto. eapply (item_lr0 g p A); eauto.
    + intros [_ E]. exists (Shift t). split; auto. assert (R : raw g p s X (Shift t)) by (econstructor; eauto; unfold covers; now rewrite K).
      destruct (fate_of g W p A OW s l0 l' n' HI HSh ER X _ R) as (d & Hd & _ & F). now rewrite <- (F K).
  - pose proof (proj1 (wg_start g W)) as K. pose proof (named_kind _ _ K ltac:(discriminate)) as HN. rewrite (line_iff (g_start g) ["accept"] HN). split.
    + intros (d & Hd & T). assert (d = Accept) as -> by (destruct d; try discriminate; auto). destruct (fate_from g W p A OW s l0 l' n' HI HSh ER _ _ Hd) as (d0 & R & _ & F). rewrite <- (F K) in R. inversion R as [| |E0]. clear R. rewrite E0 in Hg.
      inversion Hg as [|ga s1 X t H1 H2 EQ1 EQ2]; auto. subst. now apply (no_edge_0 g p A) in H2.
    + intros E. exists Accept. split; auto. assert (R : raw g p s (g_start g) Accept) by (constructor; rewrite E in Hg; now apply path_inv_nil in Hg). destruct (fate_of g W p A OW s l0 l' n' HI HSh ER _ _ R) as (d & Hd & _ & F). now rewrite <- (F K).
Qed.
End State.

(** ** All states *)
Section All.
Context (g : grammar) (W : wf_grammar g) (p : pst) (A : Aut g p).
Hypothesis OW : forall i u v, some_prec g (i, u) -> some_prec g (i, v) -> u = v.
Hypothesis SP : forall X, X < List.length (g_syms g) -> spaceless (gname g X).
Hypothesis MN : forall X ms m, kind_at g X = Some (KMulti ms) -> In m ms -> gname g m <> "".
Hypothesis NE : forall X, X < List.length (g_syms g) -> (forall ms, kind_at g X <> Some (KMulti ms)) -> gname g X <> "".
Hypothesis UQ : forall X Y, X < List.length (g_syms g) -> Y < List.length (g_syms g) -> gname g X = gname g Y -> gname g X <> "" -> X = Y.
Hypothesis RU : g_rules g <> [].
Context (p3 : pst) (n : nat) (HA : find_actions g p = GOk (p3, n)).

Lemma nth_sections cs l : forall i k, nth_error (sections g cs i l) k = option_map (state_section g cs (i + k)) (nth_error l k).
Proof.
  induction l as [|s l IH]; intros i [|k]; cbn [sections nth_error option_map]; auto; [now rewrite Nat.add_0_r|]. rewrite IH. now replace (S i + k) with (i + S k) by lia.
Qed.
Lemma sections_length cs l : forall i, List.length (sections g cs i l) = List.length l.
Proof. induction l; intros i; cbn; auto. Qed.
Lemma acted s : s < List.length (p_states p) -> exists st l0 l' n', nth_error (p_states p) s = Some st /\ nth_error (p_states p3) s = Some (st_set_actions l' st) /\ p_cfgs p3 = p_cfgs p /\
  (forall la d, In (mkAct la d) l0 <-> raw g p s la d) /\ sorted_by action_less l0 /\
  (forall la r, ~ before l0 (mkAct la (Reduce r)) (mkAct la (Reduce r))) /\
  (forall la t, before l0 (mkAct la (Shift t)) (mkAct la (Shift t)) <-> exists X ms, edge g p s X t /\ kind_at g X = Some (KMulti ms) /\ 2 <= count_occ Nat.eq_dec ms la) /\
  resolve_all g (List.length l0) l0 0 = (l', n').
Proof.
  intros Ls. destruct (raw_list g W p A s Ls) as (st1 & l0 & H1 & El & HI & HS & HR & HSh). destruct (nth_error (p_states p) s) as [st|] eqn:Est; [|apply nth_error_None in Est; lia].
  destruct (resolve_all g (List.length l0) l0 0) as [l' n'] eqn:ER. exists st, l0, l', n'. splits; auto.
  - unfold find_actions in HA. destruct (any_panics _); [discriminate|]. destruct (forallb _ _); [|discriminate]. injection HA as <- _. cbn [p_states]. rewrite !nth_error_map, H1. cbn [option_map]. f_equal. unfold resolve_state. rewrite <- El, ER. cbn [fst].
    unfold raw_actions in H1. rewrite nth_error_upd, nth_error_map, Est in H1. cbn [option_map] in H1. destruct (0 =? s); injection H1 as <-; reflexivity.
  - unfold find_actions in HA. destruct (any_panics _); [discriminate|]. destruct (forallb _ _); [|discriminate]. injection HA as <- _. reflexivity.
Qed.
Lemma same_count : List.length (p_states p3) = List.length (p_states p).
Proof.
  unfold find_actions in HA. destruct (any_panics _); [discriminate|]. destruct (forallb _ _); [|discriminate]. injection HA as <- _. cbn [p_states]. rewrite !map_length. apply raw_length.
Qed.
Lemma has_start : rules_of g (g_start g) <> [].
Proof.
  pose proof HA as H. unfold find_actions in H. destruct (any_panics _); [discriminate|]. destruct (forallb _ _) eqn:EF; [|discriminate]. injection H as Hp _.
  rewrite forallb_forall in EF. assert (L0 : 0 < List.length (g_rules g)) by (destruct (g_rules g); [contradiction|cbn; lia]). specialize (EF 0 ltac:(apply in_seq; lia)). apply existsb_exists in EF as (st' & Hst & EF). apply existsb_exists in EF as ([la d] & Hin & EF).
  unfold is_reduce in EF. cbn in EF. destruct d as [| |r| | | | | | |]; try discriminate. apply Nat.eqb_eq in EF. subst r. apply In_nth_error in Hst as [s Hs].
  assert (Ls : s < List.length (p_states p)) by (rewrite <- same_count, <- Hp; cbn [p_states]; apply nth_error_Some; congruence).
  destruct (acted s Ls) as (st & l0 & l' & n' & H1 & H2 & _ & HI & HS & HR & HSh & ER). rewrite <- Hp in H2. cbn [p_states] in H2. rewrite Hs in H2. injection H2 as ->. cbn in Hin.
  destruct (fate_from g W p A OW s l0 l' n' HI HSh ER la _ Hin) as (d0 & R & F & _).
  assert (d0 = Reduce 0). { destruct F as [->|F]; auto. destruct d0; try contradiction; destruct F as [F|[F|F]]; try discriminate; destruct F; discriminate. } subst d0.
  inversion R as [|r b HL Hb|]; subst. apply (lalr_exact g p A) in HL as (gamma & _ & HL); auto. eapply lr1_start_rules; eauto.
Qed.

Theorem report_truth v : explains g (fst (report_output g v p3)) (path g p).
Proof.
  constructor; cbn [report_output fst].
  - intros gamma. split.
    + intros (r & d & H). eapply lr0_viable; eauto.
    + intros (s & H). assert (HX : exists k, item p s k).
      { inversion H as [|ga s1 X t H1 H2]; subst.
        - pose proof has_start as HN. destruct (rules_of g (g_start g)) as [|r l] eqn:E; [contradiction|]. exists (r, 0). apply (au_start g p A). rewrite E. now left.
        - destruct (au_edge g p A _ _ _ H2) as (_ & k & Hi & HX). exists (kadv k). eapply (au_goto g p A); eauto. }
      destruct HX as [k Hk]. exists (fst k), (snd k). eapply (item_lr0 g p A); eauto.
  - apply (path_fun g p A).
  - intros gamma gamma' s H. assert (HE : forall ga t, path g p ga t -> reaches g p ga t).
    { intros ga t Ht r d. split; intros HX; [eapply lr0_item; eauto|apply (item_lr0 g p A ga t (r, d)); auto]. }
    split.
    + intros H'. split; [|eauto]. apply (path_alike g p A gamma gamma' s); auto.
    + intros [HL (m & Hm)]. enough (s = m) by congruence. apply (au_uniq g p A); try (eapply path_range; eauto; fail). intros [r d]. rewrite <- (HE _ _ H r d), <- (HE _ _ Hm r d). apply HL.
  - intros i Hi. rewrite sections_length, same_count in Hi. now apply path_reach.
  - intros gamma s H. pose proof (path_range g p A _ _ H) as Ls. destruct (acted s Ls) as (st & l0 & l' & n' & H1 & H2 & Ec & HI & HS & HR & HSh & ER).
    exists (state_section g (p_cfgs p) s (st_set_actions l' st)). splits; auto.
    + rewrite nth_sections, H2, Ec. reflexivity.
    + eapply section_truth; eauto.
Qed.
End All.

(** ** From the declarations *)
Lemma front_names ord f g0 g i n : prepare ord f = GOk g0 -> normalize_rules (find_rule_precedences g0) = GOk g -> at_name g i n -> In n (names f).
Proof.
  intros Hp Hno. apply normalize_rules_spec in Hno as (ES & _). unfold at_name. rewrite ES. cbn [g_syms find_rule_precedences]. apply prepare_spec in Hp as [(f2 & Hs & _ & _ & -> & _) _ _ _ _ _].
  assert (HN : names f2 = names f) by (now apply shape_names). intros (s & Hi & <-). rewrite nth_error_map in Hi. destruct (nth_error (order f) i) as [j|] eqn:Ej; [|discriminate]. injection Hi as <-. cbn.
  apply nth_error_In in Ej. apply (Permutation_in _ (order_perm f)), in_seq in Ej. rewrite <- HN. unfold names, get_sym. apply in_map, nth_In. rewrite <- (map_length sy_name). fold (names f2). rewrite HN. unfold names. rewrite map_length. lia.
Qed.
Lemma made_spaceless n : made_up n -> spaceless n.
Proof. intros [->|(k & ->)]; [exact Logic.I|]. unfold optional_name. apply (spaceless_app "_" _); [split; [discriminate|exact Logic.I]|apply uint_spaceless]. Qed.
Lemma front_spaceless fuel ord ds f g0 g i n : names_spaceless ds -> new_from_decls fuel ds = GOk f -> prepare ord f = GOk g0 -> normalize_rules (find_rule_precedences g0) = GOk g ->
  at_name g i n -> spaceless n.
Proof.
  intros HN Hf Hp Hno Hi. pose proof (front_names _ _ _ _ _ _ Hp Hno Hi) as Hin. unfold new_from_decls in Hf. apply gbind_ok in Hf as (f0 & H0 & Hf).
  pose proof (brings_all _ _ _ _ H0) as (_ & _ & B3). cbn in B3. assert (Hf' : brings ["{default}"] f0 f).
  { apply gbind_ok in Hf as ([x f1] & H1 & Hf). apply brings_new in H1. destruct (f_rules f1); [discriminate|]. now injection Hf as <-. }
  destruct Hf' as (_ & _ & C3). apply C3 in Hin as [Hin|[[<-|[]]|Hin]]; [|repeat split; discriminate|now apply made_spaceless].
  apply B3 in Hin as [[<-|[<-|[]]]|[Hin|Hin]]; [repeat split; discriminate..| |now apply made_spaceless]. apply HN. now apply in_flat_map.
Qed.

Lemma verbose_in ds : existsb is_verbose ds = true <-> In DVerbose ds.
Proof. rewrite existsb_exists. split; [intros (d & H & E); destruct d; try discriminate; auto|]. intros H. now exists DVerbose. Qed.
Lemma symbols_listed g : (forall X, X < List.length (g_syms g) -> spaceless (gname g X)) -> lists_symbols g (symbol_table g).
Proof.
  intros SP. unfold symbol_table. eexists _, _, _. split; [reflexivity|]. assert (HL : forall l i, List.length (symbol_lines i l) = List.length l) by (induction l; intros i; cbn; auto).
  assert (HN : forall l i X, nth_error (symbol_lines i l) X = option_map (fun s => "  " +++ rpad 3 (num (i + X)) +++ ": " +++ sy_name s) (nth_error l X)).
  { induction l as [|s l IH]; intros i [|X]; cbn [symbol_lines nth_error option_map]; auto; [now rewrite Nat.add_0_r|]. rewrite IH. now replace (S i + X) with (i + S X) by lia. }
  split; [apply HL|]. intros X LX. rewrite HN. pose proof (SP X LX) as HS. unfold gname, gsym in *. rewrite (nth_error_nth' _ dummy_sym LX). cbn [option_map]. eexists. split; [reflexivity|]. cbn [plus].
  set (w := sy_name (nth X (g_syms g) dummy_sym)) in *. change (words (rpad 3 (num X) +++ ": " +++ w) = (num X +++ ":") :: add_word w []). rewrite words_rpad.
  change (words (num X +++ ":" +++ String " " w) = (num X +++ ":") :: add_word w []). rewrite <- sapp_assoc, words_cons.
  - f_equal. unfold add_word. destruct (String.eqb_spec w "") as [->|]; [reflexivity|now apply words_end].
  - apply spaceless_app; [apply num_spaceless|]. repeat split; discriminate.
  - destruct (num X); discriminate.
Qed.

Theorem report_right fuel ord ds ks tail c : hash_order ord -> names_spaceless ds -> build_report fuel ord ds = GOk (Some (ks, tail), c) ->
  exists g at_, written ds g /\ explains g ks at_ /\ (c = true <-> conflicting g) /\ (In DVerbose ds -> lists_symbols g tail) /\ (~ In DVerbose ds -> tail = []).
Proof.
  intros Ho HN H. unfold build_report in H. apply gbind_ok in H as (f & Hf & H). apply gbind_ok in H as (g0 & H0 & H). apply gbind_ok in H as (g & H1 & H). pose proof (new_from_decls_spec _ _ _ Hf) as D.
  pose proof (prepared_wf _ _ _ _ D Ho H0 H1) as W. destruct (front_declared _ _ _ _ _ _ Ho Hf H0 H1) as (opts & DE).
  apply gbind_ok in H as (fi & Hfi & H). pose proof (find_first_sets_exact _ g fi W Hfi) as F. apply gbind_ok in H as (p1 & Hp1 & H). apply gbind_ok in H as (p2 & Hp2 & H).
  pose proof (aut_main g fi W F p1 p2 fuel fuel Hp1 Hp2) as A. apply gbind_ok in H as ([p3 nc] & H3 & H). destruct (existsb is_verbose ds || (0 <? nc)); [|discriminate]. injection H as E1 E2 Ec.
  assert (AT : forall X, X < List.length (g_syms g) -> at_name g X (gname g X)).
  { intros X L. unfold at_name, gname, gsym. destruct (nth_error (g_syms g) X) eqn:E; [|apply nth_error_None in E; lia]. eexists. split; eauto. now rewrite (nth_error_nth _ _ _ E). }
  exists g, (path g p2). splits.
  - split; eauto. exists ord. split; auto. exists fuel, f, g0. auto.
  - rewrite <- E1. apply (report_truth g W p2 A (one_word ds g opts DE)) with (n := nc) (v := existsb is_verbose ds); auto.
    + intros X L. eapply front_spaceless; eauto.
    + intros X ms m K Hm E. pose proof (de_multi _ _ _ DE X ms m K Hm) as HU. rewrite E in HU. discriminate.
    + intros X L HK E. destruct (AT X L) as (s & Hs & Es). destruct (de_anon _ _ _ DE X s Hs ltac:(congruence)) as (_ & _ & (ms & Ek) & _). apply (HK ms). unfold kind_at. now rewrite Hs, <- Ek.
    + intros X Y LX LY E N. eapply (de_uniq _ _ _ DE); eauto. rewrite E. auto.
    + destruct (de_rules _ _ _ DE) as (rs & HR & HF). intros E. rewrite HR in E. apply app_eq_nil in E as [-> _]. inversion HF as [Er|]. clear HF.
      pose proof (dc_rules f D) as HX. apply HX. unfold new_from_decls in Hf. apply gbind_ok in Hf as (f0 & Hd & Hf). pose proof (decls_DI _ _ _ Hd) as DD. apply gbind_ok in Hf as ([i f1] & Hs & Hf).
      destruct (f_rules f1) eqn:Ef; [discriminate|]. injection Hf as <-. exfalso. pose proof (di_rules _ _ DD) as HD. rewrite <- Er in HD. inversion HD as [HD1|].
      assert (f_rules f1 = f_rules f0); [|congruence]. unfold symbol_new in Hs. destruct (if ("{default}" =? "")%string then None else position _ _); cbn in Hs; injection Hs as <- <-; reflexivity.
  - rewrite <- Ec, Nat.ltb_lt. apply (conflict_exact g W p2 A (one_word ds g opts DE) _ _ H3).
  - intros HV. apply verbose_in in HV. rewrite HV in E2. rewrite <- E2. apply symbols_listed. intros X L. eapply front_spaceless; eauto.
  - intros HV. rewrite <- verbose_in in HV. apply not_true_iff_false in HV. now rewrite HV in E2.
Qed.

Lemma new_calm fuel ds : new_from_decls fuel ds <> GErr EConflicts.
Proof.
  unfold new_from_decls. intros H. apply gbind_err in H as [H|(f & Hf & H)].
  2:{ apply gbind_err in H as [H|([i f1] & Hn & H)]; [now apply new_no_err in H|]. destruct (f_rules f1); discriminate. }
  apply gfold_err in H as (l1 & d & l2 & f & -> & Hf & H). pose proof (di_ai _ _ (decls_DI _ _ _ Hf)) as A.
  destruct d as [id|c|c|c|c|na id t|a ids|t|t|t|id|fb ids|id|tk ids|nv gs|nf gs|t|n t| |lhs rhs action prec]; cbn [parse_one_decl] in H; try discriminate H;
    try (destruct (opt_is_some _) in H; discriminate H).
  - apply gbind_err in H as [H|(k & Hk & H)].
    + destruct (is_terminal_ident id); [discriminate|]. destruct (is_nonterminal_ident id); [|discriminate]. destruct (0 <? na); discriminate.
    + apply gbind_err in H as [H|([s f1] & Hn & H)]; [now apply new_no_err in H|]. destruct (opt_is_some _); discriminate.
  - apply gfold_err in H as (m1 & tok & m2 & f1 & -> & _ & H). destruct (is_terminal_ident tok); [|discriminate]. apply gbind_err in H as [H|([s f2] & Hn & H)]; [now apply new_no_err in H|]. destruct (opt_is_some _); discriminate.
  - destruct (opt_is_some (f_start f)); [discriminate|]. destruct (is_nonterminal_ident id); [|discriminate]. apply gbind_err in H as [H|([s f1] & _ & H)]; [now apply new_no_err in H|discriminate].
  - apply gbind_err in H as [H|([syms f1] & Hg & H)]; [apply terms_err in H as (H & _); discriminate|]. destruct (is_terminal_ident fb); [|discriminate]. apply gbind_err in H as [H|([fbx f2] & Hn & H)]; [now apply new_no_err in H|].
    apply gbind_err in H as [H|(u & _ & H)]; [apply check_err in H as (H & _); discriminate|]. apply gfold_err in H as (m1 & tok & m2 & f3 & -> & _ & H). destruct (opt_is_some _); discriminate.
  - destruct (opt_is_some (f_wild f)); [discriminate|]. destruct (is_terminal_ident id); [|discriminate]. apply gbind_err in H as [H|([s f1] & _ & H)]; [now apply new_no_err in H|discriminate].
  - destruct (is_terminal_ident tk); [|discriminate]. apply gbind_err in H as [H|([c f1] & _ & H)]; [now apply new_no_err in H|]. apply gfold_err in H as (m1 & n & m2 & f2 & -> & _ & H). destruct (is_terminal_ident n); [|discriminate].
    apply gbind_err in H as [H|([s f3] & _ & H)]; [now apply new_no_err in H|]. destruct (sy_kind _); discriminate.
  - destruct (is_nonterminal_ident lhs); [|discriminate]. apply gbind_err in H as [H|([l f1] & _ & H)]; [now apply new_no_err in H|]. apply gbind_err in H as [H|([r f2] & _ & H)].
    + apply gfold_err in H as (m1 & e1 & m2 & [r1 f2] & -> & _ & H). apply gbind_err in H as [H|([x f3] & _ & H)]; [|discriminate].
      apply elem_err in H as [(n & o & al & H & _)|(ns & o & al & n & H & _)]; discriminate.
    + apply gbind_err in H as [H|([ps f3] & _ & H)].
      * destruct prec as [n|]; [|discriminate]. destruct (is_terminal_ident n); [|discriminate]. apply gbind_err in H as [H|([s f3] & _ & H)]; [now apply new_no_err in H|discriminate].
      * unfold create_rule in H. destruct (sy_kind _); discriminate.
Qed.
Lemma norm_calm g : normalize_rules g <> GErr EConflicts.
Proof.
  intros H. unfold normalize_rules in H. apply gbind_err in H as [H|(rs & _ & H)]; [|discriminate]. apply gfold_err in H as (l1 & ru & l2 & s & El & _ & H). apply gbind_err in H as [H|(r' & _ & H)]; [|discriminate].
  unfold normalize_rule in H. destruct (r_code ru); try discriminate. destruct (has_type _ _); [|discriminate]. destruct (_ && _); discriminate.
Qed.
Lemma gen_calm g p : generate_source g p <> GErr EConflicts.
Proof.
  unfold generate_source. intros H. apply gbind_err in H as [H|(w & Hw & H)]; [destruct (g_wild g); [|discriminate]; destruct (has_type _ _); discriminate|].
  apply gbind_err in H as [H|([[m syms] dts] & HT & H)]; [now apply quiet_types in H|]. apply gbind_err in H as [H|([] & Ht & H)]; [destruct (_ =? 0) in H; discriminate H|].
  apply gbind_err in H as [H|([] & Hp & H)]; [destruct (_ =? 0) in H; discriminate H|]. apply gbind_err in H as [H|([] & Hg & H)]; [destruct (forallb _ _); discriminate|].
  apply gbind_err in H as [H|(k & _ & H)]; [now apply quiet_pack in H|]. apply gbind_err in H as [H|(so & _ & H)]; [now apply quiet_ofst in H|].
  apply gbind_err in H as [H|(ro & _ & H)]; [now apply quiet_ofst in H|]. apply gbind_err in H as [H|(fb & _ & H)].
  { unfold fallback_table in H. apply gfold_err in H as (l1 & i & l2 & acc & _ & _ & H). destruct (sy_fb _); [|discriminate]. destruct (_ || _); discriminate. }
  apply gbind_err in H as [H|(rr & _ & H)]; [|discriminate]. unfold gmapM in H. apply gfold_err in H as (l1 & ru & l2 & acc & El & _ & H). apply gbind_err in H as [H|(b & _ & H)]; [|discriminate].
  unfold translate_code in H. apply gbind_err in H as [H|([] & _ & H)].
  - apply gfold_err in H as (m1 & [X al] & m2 & acc2 & _ & _ & H). cbn [fst snd] in H. destruct (sy_kind _); try discriminate. destruct al; [|discriminate]. destruct (forallb _ _) in H; discriminate H.
  - apply gbind_err in H as [H|([] & _ & H)]; [|discriminate]. apply gfold_err in H as (m1 & [X al] & m2 & acc2 & _ & _ & H). destruct (_ && _); discriminate.
Qed.

(** When there is a report: for an error about conflicts, and if %verbose is given. *)
Theorem report_when fuel ord ds : hash_order ord ->
  (build fuel ord ds = GErr EConflicts <-> exists r, build_report fuel ord ds = GOk (Some r, true)) /\
  (forall b, build fuel ord ds = GOk b -> exists o, build_report fuel ord ds = GOk (o, false) /\ (In DVerbose ds <-> o <> None)).
Proof.
  intros Ho. pose proof (verbose_in ds) as HV.
  unfold build, build_fe, build_report. split.
  - split.
    + intros H. apply gbind_err in H as [H|(f & Hf & H)]; [exfalso; now apply new_calm in H|]. rewrite Hf. cbn [gbind].
      apply gbind_err in H as [H|(g0 & H0 & H)]; [exfalso; now apply prepare_no_err in H|]. rewrite H0. cbn [gbind].
      apply gbind_err in H as [H|(g & H1 & H)]; [exfalso; now apply norm_calm in H|]. rewrite H1. cbn [gbind]. pose proof (new_from_decls_spec _ _ _ Hf) as D. pose proof (prepared_wf _ _ _ _ D Ho H0 H1) as W.
      apply gbind_err in H as [H|(fi & Hfi & H)]; [exfalso; now apply quiet_first in H|]. rewrite Hfi. cbn [gbind].
      apply gbind_err in H as [H|(p1 & Hp1 & H)]; [exfalso; apply states_err in H as [(H & _)|(H & _)]; auto; discriminate|]. rewrite Hp1. cbn [gbind].
      apply gbind_err in H as [H|(p2 & Hp2 & H)]; [exfalso; now apply quiet_follow in H|]. rewrite Hp2. cbn [gbind].
      apply gbind_err in H as [H|([p3 nc] & H3 & H)]; [exfalso; unfold find_actions in H; destruct (any_panics _); [discriminate|]; destruct (forallb _ _); discriminate|]. rewrite H3. cbn [gbind].
      destruct (0 <? nc) eqn:E; [rewrite orb_true_r; eauto|]. exfalso. apply gbind_err in H as [H|(p4 & _ & H)]; [now apply quiet_compress in H|]. apply gbind_err in H as [H|(t & _ & H)]; [now apply gen_calm in H|discriminate].
    + intros (r & H). apply gbind_ok in H as (f & -> & H). cbn [gbind]. apply gbind_ok in H as (g0 & -> & H). cbn [gbind]. apply gbind_ok in H as (g & -> & H). cbn [gbind]. apply gbind_ok in H as (fi & -> & H). cbn [gbind].
      apply gbind_ok in H as (p1 & -> & H). cbn [gbind]. apply gbind_ok in H as (p2 & -> & H). cbn [gbind]. apply gbind_ok in H as ([p3 nc] & -> & H). cbn [gbind]. injection H as _ ->. reflexivity.
  - intros b H. apply gbind_ok in H as (f & -> & H). cbn [gbind]. apply gbind_ok in H as (g0 & -> & H). cbn [gbind]. apply gbind_ok in H as (g & -> & H). cbn [gbind]. apply gbind_ok in H as (fi & -> & H). cbn [gbind].
    apply gbind_ok in H as (p1 & -> & H). cbn [gbind]. apply gbind_ok in H as (p2 & -> & H). cbn [gbind]. apply gbind_ok in H as ([p3 nc] & -> & H). cbn [gbind]. destruct (0 <? nc); [discriminate|].
    eexists. split; [reflexivity|]. rewrite orb_false_r, <- HV. destruct (existsb is_verbose ds); split; congruence.
Qed.
