(** C31: the order of the hash map of optional symbols is not seen by the user of the parser. *)
From Verif Require Import Base Syntax BaseFacts FrontEnd First States Actions Tables Runtime User Spec WfGrammar AutoFacts ActFacts CompFacts TabFacts PackFacts LookFacts
  PipeFacts BuildFacts GramFacts DeclSpec FaultSpec FaultAct FaultNone LalrFacts Reorder ReorderStates Claims13 ReorderActs ReorderRun Main Claims2 Claims3.
Open Scope string_scope. Open Scope nat_scope. Open Scope list_scope.

(** ** What a state answers, whatever was done before *)
Section Answers.
Context (g : grammar) (p p3 p4 : pst) (t : tables) (P : Pipe g p p3 p4 t).
Let W := pp_wf _ _ _ _ _ P.
Let A := pp_aut _ _ _ _ _ P.
Notation ns := (List.length (p_states p)).
Notation nr := (List.length (g_rules g)).
Notation num := (state_num g p4).

Lemma nonterm_miss s X : s < ns -> g_nterm g <= X < g_dflt g -> eff (acts p4 s) X = None -> t_err t <> 0 ->
  find_reduce_action t (num s) X = LAct (code ns nr num (dd g (acts p4 s))).
Proof.
  intros Hs HX HE Hne. destruct (pp_gen _ _ _ _ _ P) as (k & m & sy & dt & G & Hok).
  pose proof (find_reduce_none_err g W p4 t k m sy dt G) as HF. rewrite (pp_len4 _ _ _ _ _ P) in HF.
  apply HF; eauto using comp_sorted, comp_las, comp_dd_ok.
  - apply (au_pos g p A).
  - assert (HP : packed g p4 k).
    { apply (k_packed g W p4 t k m sy dt G); rewrite (pp_len4 _ _ _ _ _ P); eauto using comp_sorted, comp_las. }
    assert (H04 : 0 < List.length (p_states p4)) by (rewrite (pp_len4 _ _ _ _ _ P); apply (au_pos g p A)).
    apply (proj2 (pk_ofs g p4 k HP 0 false H04)). destruct (wg_start g W) as [Ks Hsd]. pose proof (nt_range _ _ _ _ _ P _ Ks Hsd) as HRs.
    pose proof (nonterm_sole _ _ _ _ _ P 0 (g_start g) Accept (au_pos g p A) HRs (raw_accept _ _ _ eq_refl)) as Ha.
    apply eff_in in Ha as [Hin _]. unfold aset. intros En.
    enough (HI : In (g_start g, code (List.length (p_states p4)) nr num Accept) []) by exact HI.
    rewrite <- En. apply action_set_in. exists Accept. splits; auto. unfold keep.
    apply andb_true_iff. split; apply negb_true_iff; [apply Nat.ltb_ge|apply Nat.eqb_neq]; lia.
Qed.
Lemma nonterm_gone s X : s < ns -> g_nterm g <= X < g_dflt g -> eff (acts p4 s) X = None -> t_err t = 0 -> find_reduce_action t (num s) X = LPanic.
Proof. intros Hs HX HE H0. destruct (reduce_lookup_none _ _ _ _ _ P s X Hs HX HE) as [H|[H _]]; auto. contradiction. Qed.

Definition sound_det (d : detail) : Prop :=
  match d with Shift q => q < ns | Reduce r => r < nr | Accept | Error => True | _ => False end.
Lemma raw_sound s la d : raw g p s la d -> sound_det d.
Proof.
  intros [X q m E C|r b (st & c & H1 & H2 & H3 & _) Hb|E]; cbn; auto.
  - now apply (au_edge g p A) in E as [? _].
  - assert (Hi : item p s (r, rlen g r)) by (exists st, c; auto). pose proof (au_valid g p A _ _ Hi) as [Hru _]. exact Hru.
Qed.
Lemma dd_sound s : s < ns -> sound_det (dd g (acts p4 s)).
Proof.
  intros Hs. destruct (pp_comp _ _ _ _ _ P s Hs) as [dr C]. rewrite (comp_dd g p p3 p4 s dr Hs C). destruct dr as [r|]; [|exact I].
  destruct (co_rule _ _ _ _ C r eq_refl) as (_ & la0 & Hin). eapply (raw_sound s la0 (Reduce r)). eapply settled_raw; [now apply (pp_settled _ _ _ _ _ P)|exact Hin|exact I].
Qed.
Lemma eff_sound s la d : s < ns -> la <> g_dflt g -> eff (acts p4 s) la = Some d -> sound_det d.
Proof.
  intros Hs Hla He. apply eff_in in He as [Hin He]. destruct (comp_src _ _ _ _ _ P s la d Hs Hin He Hla) as [[_ R]|[-> _]]; [eapply raw_sound; eauto|exact I].
Qed.
Lemma slook_sound s la d : s < ns -> tokenish g la -> slook g (acts p4 s) la d -> sound_det d.
Proof.
  intros Hs Ht H. destruct (slook_where g _ _ _ H) as [(b & Hb & He)| ->]; [|now apply dd_sound].
  apply (eff_sound s b d Hs); auto. apply (tokenish_dflt g W p). eapply (looks_tokenish _ _ _ _ _ P); eauto.
Qed.
End Answers.

(** ** Two expansions *)
Section Two.
Context (ds : list decl) (b1 b2 : built) (EX1 : expands ds b1) (EX2 : expands ds b2) (US1 : usable ds b1) (US2 : usable ds b2).
Notation g1 := (bt_grammar b1).
Notation g2 := (bt_grammar b2).
Notation t1 := (bt_tables b1).
Notation t2 := (bt_tables b2).
Let P1 := ex_pipe ds b1 EX1 US1.
Let P2 := ex_pipe ds b2 EX2 US2.

Lemma eff_ra phi sig : forall l la, eff (map (ren_act phi sig) l) la = option_map (ren_det phi sig) (eff l la).
Proof.
  induction l as [|a l IH]; intros la; cbn; auto. rewrite IH. destruct (eff l la) as [d|]; cbn; auto. destruct (a_la a =? la); auto. destruct (a_det a); reflexivity.
Qed.

Section Names.
Context (n : nat) (phi psi : nat -> nat) (RD : reord n g1 g2 phi psi) (sig tau : nat -> nat) (PD : paired g1 g2 (bt_auto b1) (bt_auto b2) phi sig tau).
Notation ns := (List.length (p_states (bt_auto b2))).
Notation nr := (List.length (g_rules g2)).
Notation num1 := (state_num g1 (bt_comp b1)).
Notation num2 := (state_num g2 (bt_comp b2)).
Notation rn := (ren_det phi sig).
Definition srel (a b : nat) : Prop := exists s, s < ns /\ a = num1 (sig s) /\ b = num2 s.

Lemma comp_lists s : s < ns -> acts (bt_comp b1) (sig s) = map (ren_act phi sig) (acts (bt_comp b2) s).
Proof.
  intros Hs. destruct (ex_ran ds b1 EX1) as (k1 & o1 & f1 & _ & _ & R1). destruct (ex_ran ds b2 EX2) as (k2 & o2 & f2 & _ & _ & R2).
  eapply (comp_same n g1 g2 phi psi RD (ex_wf ds b1 EX1) (ex_wf ds b2 EX2) (bt_auto b1) (bt_auto b2) (ex_aut ds b1 EX1) (ex_aut ds b2 EX2) sig tau PD);
    [|apply (rn_acts _ _ _ _ R1)|apply (rn_acts _ _ _ _ R2)|apply (rn_comp _ _ _ _ R1)|apply (rn_comp _ _ _ _ R2)|exact Hs].
  exact (proj1 (expanded_decided ds b2 EX2)).
Qed.
Lemma dd_ren l : dd g1 (map (ren_act phi sig) l) = rn (dd g2 l).
Proof. unfold dd. rewrite eff_ra, (rd_dflt _ _ _ _ _ RD). destruct (eff l (g_dflt g1)); reflexivity. Qed.
Lemma slook_ren l la d : slook g2 l la d -> slook g1 (map (ren_act phi sig) l) la (rn d).
Proof.
  induction 1 as [la d H|la c d H H0 Hf Hs IH|H|la w d H H0 Hf Hw He|la H H0 Hf Hw].
  - apply sl_own. now rewrite eff_ra, H.
  - eapply sl_fb; eauto; [now rewrite eff_ra, H|]. unfold fb in *. now rewrite <- (rd_gsym _ _ _ _ _ RD).
  - rewrite <- dd_ren. apply sl_eoi. now rewrite eff_ra, H.
  - eapply (sl_wild g1 _ la w); auto; [now rewrite eff_ra, H| | |now rewrite eff_ra, He].
    + unfold fb in *. now rewrite <- (rd_gsym _ _ _ _ _ RD).
    + now rewrite <- (rd_wild _ _ _ _ _ RD).
  - rewrite <- dd_ren. apply sl_dflt; auto; [now rewrite eff_ra, H| |].
    + unfold fb in *. now rewrite <- (rd_gsym _ _ _ _ _ RD).
    + intros w Ew. rewrite <- (rd_wild _ _ _ _ _ RD) in Ew. now rewrite eff_ra, (Hw w Ew).
Qed.
Lemma len_eq : List.length (p_states (bt_auto b1)) = ns. Proof. symmetry. apply (pd_len _ _ _ _ _ _ _ PD). Qed.
Lemma rules_eq : List.length (g_rules g1) = nr. Proof. symmetry. apply (rd_len _ _ _ _ _ RD). Qed.
Lemma code_ren d : sound_det g2 (bt_auto b2) d -> same_code ns nr srel phi (code ns nr num1 (rn d)) (code ns nr num2 d).
Proof.
  destruct d; cbn; intros H; try contradiction; unfold code; cbn.
  - apply sc_shift. exists s. auto.
  - apply sc_other. lia.
  - now apply sc_reduce.
  - apply sc_other. lia.
Qed.

Lemma shift_same a b la : srel a b -> la < g_nterm g2 -> same_look ns nr srel phi (find_shift_action t1 a la) (find_shift_action t2 b la).
Proof.
  intros (s & Hs & -> & ->) Hla. assert (Ht : tokenish g2 la) by now left. assert (Ht1 : tokenish g1 la) by (left; now rewrite <- (rd_nterm _ _ _ _ _ RD)).
  destruct (shift_lookup_total _ _ _ _ _ P2 s la Hs Ht) as (d & Hd & ->). pose proof (slook_ren _ _ _ Hd) as Hd1. rewrite <- comp_lists in Hd1 by auto.
  rewrite (shift_lookup _ _ _ _ _ P1 (sig s) la (rn d)); auto; [|now apply (pd_lt _ _ _ _ _ _ _ PD)]. rewrite len_eq, rules_eq. cbn. apply code_ren. eapply (slook_sound _ _ _ _ _ P2); eauto.
Qed.
Lemma err_same : t_err t1 = t_err t2.
Proof. rewrite (t_er _ _ _ _ _ P1), (t_er _ _ _ _ _ P2). now rewrite (rd_error _ _ _ _ _ RD), (rd_gsym _ _ _ _ _ RD). Qed.
Lemma goto_same a b X : srel a b -> g_nterm g2 <= X < g_dflt g2 -> same_look ns nr srel phi (find_reduce_action t1 a X) (find_reduce_action t2 b X).
Proof.
  intros (s & Hs & -> & ->) HX. assert (HX1 : g_nterm g1 <= X < g_dflt g1) by now rewrite <- (rd_nterm _ _ _ _ _ RD), <- (rd_dflt _ _ _ _ _ RD).
  assert (Hs1 : sig s < List.length (p_states (bt_auto b1))) by now apply (pd_lt _ _ _ _ _ _ _ PD).
  assert (E1 : eff (acts (bt_comp b1) (sig s)) X = option_map rn (eff (acts (bt_comp b2) s) X)) by now rewrite comp_lists, eff_ra.
  destruct (eff (acts (bt_comp b2) s) X) as [d|] eqn:E2; cbn in E1.
  - rewrite (reduce_lookup _ _ _ _ _ P1 (sig s) X _ Hs1 HX1 E1), (reduce_lookup _ _ _ _ _ P2 s X _ Hs HX E2). rewrite len_eq, rules_eq. cbn. apply code_ren.
    eapply (eff_sound _ _ _ _ _ P2 s X); eauto. lia.
  - destruct (Nat.eq_dec (t_err t2) 0) as [Z|N].
    + rewrite (nonterm_gone _ _ _ _ _ P1 (sig s) X) by (auto; now rewrite err_same). rewrite (nonterm_gone _ _ _ _ _ P2 s X) by auto. exact I.
    + rewrite (nonterm_miss _ _ _ _ _ P1 (sig s) X) by (auto; now rewrite err_same). rewrite (nonterm_miss _ _ _ _ _ P2 s X) by auto. rewrite len_eq, rules_eq, comp_lists, dd_ren by auto. cbn. apply code_ren. now apply (dd_sound _ _ _ _ _ P2).
Qed.

Lemma phi_lt r : r < nr -> phi r < nr.
Proof. intros H. rewrite <- rules_eq. apply nth_error_Some. rewrite <- (rd_rule _ _ _ _ _ RD). now apply nth_error_Some. Qed.

Theorem tables_in_step : in_step t1 t2 srel phi.
Proof.
  destruct (pp_gen _ _ _ _ _ P1) as (k1 & m1 & sy1 & dt1 & G1 & _). destruct (pp_gen _ _ _ _ _ P2) as (k2 & m2 & sy2 & dt2 & G2 & _).
  pose proof (gn_types _ _ _ _ _ _ _ G1) as T1. pose proof (gn_types _ _ _ _ _ _ _ G2) as T2. rewrite (same_types n g1 g2 phi psi RD), T1 in T2. injection T2 as <- <- <-.
  assert (E1 : t_nstate t1 = ns) by (rewrite (t_ns _ _ _ _ _ P1); apply len_eq). assert (E2 : t_nstate t2 = ns) by apply (t_ns _ _ _ _ _ P2).
  assert (E3 : t_nrule t1 = nr) by (rewrite (t_nr _ _ _ _ _ P1); apply rules_eq). assert (E4 : t_nrule t2 = nr) by apply (t_nr _ _ _ _ _ P2).
  assert (HG1 : generate_source g1 (bt_comp b1) = GOk t1) by (destruct (ex_ran ds b1 EX1) as (? & ? & ? & _ & _ & R); apply (rn_tables _ _ _ _ R)).
  assert (HG2 : generate_source g2 (bt_comp b2) = GOk t2) by (destruct (ex_ran ds b2 EX2) as (? & ? & ? & _ & _ & R); apply (rn_tables _ _ _ _ R)).
  pose proof (ex_wf ds b2 EX2) as W2.
  constructor; rewrite ?E2, ?E4.
  - exact E1.
  - exact E3.
  - now rewrite (gn_nterm _ _ _ _ _ _ _ G1), (gn_nterm _ _ _ _ _ _ _ G2), (rd_nterm _ _ _ _ _ RD).
  - apply err_same.
  - rewrite (limit_eq ds b1 EX1), (limit_eq ds b2 EX2). reflexivity.
  - now rewrite (gn_dts _ _ _ _ _ _ _ G1), (gn_dts _ _ _ _ _ _ _ G2).
  - now rewrite (gn_typed _ _ _ _ _ _ _ G1), (gn_typed _ _ _ _ _ _ _ G2).
  - now rewrite (gn_root _ _ _ _ _ _ _ G1), (gn_root _ _ _ _ _ _ _ G2), (rd_start _ _ _ _ _ RD).
  - exists 0. splits; [apply (au_pos _ _ (ex_aut ds b2 EX2))| |symmetry; apply (num_0 _ _ _ _ _ P2)]. rewrite (pd_0 _ _ _ _ _ _ _ PD). symmetry. apply (num_0 _ _ _ _ _ P1).
  - intros a b (s & Hs & -> & ->). split; [|now apply (num_lt _ _ _ _ _ P2)]. rewrite <- len_eq. apply (num_lt _ _ _ _ _ P1). now apply (pd_lt _ _ _ _ _ _ _ PD).
  - apply phi_lt.
  - intros r Hr. pose proof (gn_rules _ _ _ _ _ _ _ G1) as H1. pose proof (gn_rules _ _ _ _ _ _ _ G2) as H2.
    apply (gmap_nth (translate_code g1 dt1) dummy_rule dummy_rt) in H1 as (L1 & _ & H1). apply (gmap_nth (translate_code g2 dt1) dummy_rule dummy_rt) in H2 as (L2 & _ & H2). cbn [List.length Nat.add] in *.
    pose proof (phi_lt r Hr) as Hp. specialize (H1 (phi r)). rewrite rules_eq in H1, L1. specialize (H1 Hp). specialize (H2 r Hr).
    fold (grule g1 (phi r)) in H1. fold (grule g2 r) in H2. rewrite (same_translate n g1 g2 phi psi RD), (rd_grule _ _ _ _ _ RD), H1 in H2. injection H2 as H2.
    rewrite (nth_error_nth' _ dummy_rt) by lia. rewrite (nth_error_nth' _ dummy_rt) by lia. now rewrite H2.
  - intros a b la Hab Hla. apply shift_same; auto. now rewrite <- (gn_nterm _ _ _ _ _ _ _ G2).
  - intros a b r rr Hab Hr. assert (Lr : r < nr).
    { pose proof (gn_rules _ _ _ _ _ _ _ G2) as H2. apply (gmap_nth (translate_code g2 dt1) dummy_rule dummy_rt) in H2 as (L2 & _ & _). cbn in L2. rewrite <- L2. apply nth_error_Some. congruence. }
    destruct (rule_entry _ _ _ _ _ P2 r Lr) as (rr' & Er & El & _). assert (rr' = rr) by congruence. subst rr'. rewrite El. apply goto_same; auto.
    destruct (wg_rule g2 W2 r (grule g2 r) (nth_grule g2 r Lr)) as (K & Hd & _). apply (nt_range _ _ _ _ _ P2); auto.
  - intros a b Hab Hne. apply goto_same; auto. pose proof (t_er _ _ _ _ _ P2) as Et. destruct (1 <? _); [|contradiction]. rewrite Et. destruct (wg_error g2 W2) as [K Hd]. apply (nt_range _ _ _ _ _ P2); auto.
Qed.
End Names.
End Two.

(** ** What the user of the parser sees: the value or error, the extra value, whether the parser is
    done, and the blocks that were run, each with its rule *)
Definition heard (t : tables) (e : event) : event + option rt_rule :=
  match e with EvReduce r => inr (nth_error (t_rules t) r) | e => inl e end.
Definition seen_alike {V X} (t1 t2 : tables) (p q : parser (minor V) X V) : Prop :=
  ps_extra p = ps_extra q /\ ps_status p = ps_status q /\ ps_count p = ps_count q /\
  map (fun e => (e_major e, e_minor e)) (ps_stack p) = map (fun e => (e_major e, e_minor e)) (ps_stack q) /\
  map (heard t1) (ps_log p) = map (heard t2) (ps_log q).
Definition same_outcome {V X E A} (t1 t2 : tables) (x y : res (minor V) X E V A) : Prop :=
  match x, y with
  | ROk a p, ROk b q => a = b /\ seen_alike t1 t2 p q
  | RErr e p, RErr f q => e = f /\ seen_alike t1 t2 p q
  | RPanic, RPanic | RFuel, RFuel => True
  | _, _ => False
  end.

Lemma pipe_rules g p p3 p4 t : Pipe g p p3 p4 t -> List.length (t_rules t) = List.length (g_rules g).
Proof.
  intros P. destruct (pp_gen _ _ _ _ _ P) as (k & m & sy & dt & G & _). pose proof (gn_rules _ _ _ _ _ _ _ G) as H.
  apply (gmap_nth (translate_code g dt) dummy_rule dummy_rt) in H as (L & _). exact L.
Qed.

Theorem order_same_run ds b1 b2 : expands ds b1 -> expands ds b2 -> usable ds b1 -> usable ds b2 ->
  forall (V X E : Type) (sm : sem V X E) (n : nat) (x : X) (ks : list (token V)), tokens_wf b1 ks ->
  same_outcome (bt_tables b1) (bt_tables b2)
    (parse_all n (bt_tables b1) (user_hooks (bt_tables b1) sm) (new_parser (user_hooks (bt_tables b1) sm) x) (map (token_value (bt_tables b1) sm) ks))
    (parse_all n (bt_tables b2) (user_hooks (bt_tables b2) sm) (new_parser (user_hooks (bt_tables b2) sm) x) (map (token_value (bt_tables b2) sm) ks)) /\
  same_outcome (bt_tables b1) (bt_tables b2) (api_run n (bt_tables b1) sm x ks) (api_run n (bt_tables b2) sm x ks).
Proof.
  intros EX1 EX2 US1 US2 V X E sm n x ks HK. pose proof (ex_pipe ds b1 EX1 US1) as P1. pose proof (ex_pipe ds b2 EX2 US2) as P2.
  destruct (written_reord ds _ _ (expands_written _ _ EX1) (expands_written _ _ EX2)) as (m & phi & psi & RD).
  destruct (states_paired m _ _ phi psi _ _ RD (ex_aut ds b1 EX1) (ex_aut ds b2 EX2)) as (sig & tau & PD).
  pose proof (tables_in_step ds b1 b2 EX1 EX2 US1 US2 m phi psi RD sig tau PD) as IS.
  assert (H0 : 0 < t_nterm (bt_tables b2)) by (rewrite (nterm_eq ds b2 EX2 US2); apply (wg_nterm_pos _ (ex_wf ds b2 EX2))).
  assert (HT : Forall (fun k : token V => fst k < t_nterm (bt_tables b2)) ks).
  { eapply Forall_impl; [|exact HK]. intros k [Hk _]. rewrite (is_nterm _ _ _ _ IS) in Hk. apply Hk. }
  assert (HR : forall r, nth_error (t_rules (bt_tables b1)) (phi r) = nth_error (t_rules (bt_tables b2)) r).
  { intros r. destruct (Nat.lt_ge_cases r (t_nrule (bt_tables b2))) as [L|L]; [now apply (is_rule _ _ _ _ IS)|].
    rewrite (t_nr _ _ _ _ _ P2) in L. transitivity (@None rt_rule); [|symmetry]; apply nth_error_None; [rewrite (pipe_rules _ _ _ _ _ P1)|rewrite (pipe_rules _ _ _ _ _ P2); exact L].
    apply nth_error_None. rewrite <- (rd_rule _ _ _ _ _ RD). now apply nth_error_None. }
  assert (HH : forall e, heard (bt_tables b1) (ren_ev phi e) = heard (bt_tables b2) e) by (intros []; cbn; auto; now rewrite HR).
  assert (HS : forall p q : parser (minor V) X V, same_parser (srel b1 b2 sig) phi p q -> seen_alike (bt_tables b1) (bt_tables b2) p q).
  { intros p q [S1 S2 S3 S4 S5]. unfold seen_alike. splits; auto.
    - clear - S2. induction S2 as [|e f s s' SE S2 IH]; [reflexivity|]. destruct SE as (_ & A1 & A2). cbn [map]. now rewrite A1, A2, IH.
    - rewrite S5, map_map. apply map_ext. exact HH. }
  assert (HO : forall A (u v : res (minor V) X E V A), same_res (srel b1 b2 sig) phi u v -> same_outcome (bt_tables b1) (bt_tables b2) u v).
  { intros A u v. destruct u, v; cbn; auto; intros [-> H]; auto. }
  split; apply HO.
  - rewrite (map_ext _ _ (same_value _ _ _ _ IS sm)). apply same_all; auto; try (intros; solve [eapply same_rule_reduce; eauto | eapply same_h_accept; eauto | eapply same_h_syntax; eauto | eapply same_h_overflow; eauto]).
    + rewrite Forall_map. exact HT.
    + eapply same_new; eauto.
  - apply same_api_run; auto.
Qed.
