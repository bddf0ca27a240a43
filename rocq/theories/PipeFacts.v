(** The generated tables against the LALR(1) automaton: what the runtime's lookups
    mean. *)
From Verif Require Import Base Syntax BaseFacts FrontEnd First States Actions Tables Runtime
  PackFacts Spec WfGrammar FirstFacts ClosureFacts AutoFacts LalrFacts ActFacts CompFacts GroupFacts TabFacts LookFacts.

(** All stages of a successful build, with the side conditions under which the
    tables are right: classes list terminals, fallbacks do not loop, and no two
    different states were given the same offset. *)
Record Pipe (g : grammar) (p p3 p4 : pst) (t : tables) : Prop := {
  pp_wf : wf_grammar g;
  pp_flat : flat g;
  pp_fb : acyclic_fb g;
  pp_aut : Aut g p;
  pp_len3 : List.length (p_states p3) = List.length (p_states p);
  pp_settled : forall s, s < List.length (p_states p) -> settled g p p3 s;
  pp_len4 : List.length (p_states p4) = List.length (p_states p);
  pp_comp : forall s, s < List.length (p_states p) -> exists dr, compressed g (acts p3 s) (acts p4 s) dr;
  pp_gen : exists k m syms dts, generated g p4 t k m syms dts /\ packing_ok g p4 k }.

Section Pipe.
Context (g : grammar) (p p3 p4 : pst) (t : tables) (P : Pipe g p p3 p4 t).
Let W := pp_wf _ _ _ _ _ P.
Let A := pp_aut _ _ _ _ _ P.
Notation ns := (List.length (p_states p)).
Notation nr := (List.length (g_rules g)).
Notation num := (state_num g p4).

Lemma num_lt s : s < ns -> num s < ns.
Proof. intros H. rewrite <- (pp_len4 _ _ _ _ _ P) in *. now apply state_num_lt. Qed.
Lemma num_inj s s' : s < ns -> s' < ns -> num s = num s' -> s = s'.
Proof. intros H H'. rewrite <- (pp_len4 _ _ _ _ _ P) in *. now apply state_num_inj. Qed.
Lemma num_0 : num 0 = 0.
Proof. apply state_num_0. rewrite (pp_len4 _ _ _ _ _ P). apply (au_pos g p A). Qed.

Lemma t_ns : t_nstate t = ns.
Proof. destruct (pp_gen _ _ _ _ _ P) as (k & m & sy & dt & G & _). rewrite (gn_ns _ _ _ _ _ _ _ G). apply (pp_len4 _ _ _ _ _ P). Qed.
Lemma t_nr : t_nrule t = nr.
Proof. destruct (pp_gen _ _ _ _ _ P) as (k & m & sy & dt & G & _). apply (gn_nr _ _ _ _ _ _ _ G). Qed.
Lemma t_nt : t_nterm t = g_nterm g.
Proof. destruct (pp_gen _ _ _ _ _ P) as (k & m & sy & dt & G & _). apply (gn_nterm _ _ _ _ _ _ _ G). Qed.
Lemma t_er : t_err t = if 1 <? sy_use (gsym g (g_error g)) then g_error g else 0.
Proof. destruct (pp_gen _ _ _ _ _ P) as (k & m & sy & dt & G & _). apply (gn_err _ _ _ _ _ _ _ G). Qed.

Lemma raw_le_dflt s la d : raw g p s la d -> la <= g_dflt g.
Proof.
  pose proof (wg_dflt_range g W) as Hd. intros R. inversion R as [X q m E C|r b _ Hb|Hs]; subst; try lia.
  - destruct (edge_sym g W p A _ _ _ E) as (HX & _ & _ & _). unfold covers in C. destruct (kind_at g X) as [[| |ms]|] eqn:K; subst.
    + apply (wg_term g W) in K; auto. lia.
    + apply (wg_nonterm g W) in K. lia.
    + pose proof (pp_flat _ _ _ _ _ P X ms la K C) as Ht. unfold is_term in Ht.
      pose proof (kind_at_range _ _ _ Ht). apply (wg_term g W) in Ht; auto. lia.
    + exfalso. rewrite (gsym_kind_at g X HX) in K. discriminate.
  - pose proof (proj1 (wg_start g W)) as Hk. apply (wg_nonterm g W) in Hk. lia.
Qed.

Lemma comp_sorted s : s < ns -> la_sorted (acts p4 s).
Proof. intros Hs. destruct (pp_comp _ _ _ _ _ P s Hs) as [dr C]. apply (co_sorted _ _ _ _ C). Qed.

Lemma comp_src s la d : s < ns -> In (mkAct la d) (acts p4 s) -> emits d = true -> la <> g_dflt g ->
  (live d /\ raw g p s la d) \/ (d = Error /\ exists t0, raw g p s la (Shift t0)).
Proof.
  intros Hs Hin He Hla. destruct (pp_comp _ _ _ _ _ P s Hs) as [dr C]. apply (co_mem _ _ _ _ C _ _ He) in Hin; auto.
  pose proof (pp_settled _ _ _ _ _ P s Hs) as S3. destruct (emits_cases d He) as [Hl| ->].
  - left. split; auto. eapply settled_raw; eauto.
  - right. split; auto. destruct (settled_src g p p3 s S3 _ _ Hin) as (d0 & R & D). destruct d0; try (inversion D; fail); try (inversion R; fail). eauto.
Qed.

Lemma comp_las s : s < ns -> las_ok g (pstate p4 s).
Proof.
  intros Hs [la d] Hin He. simpl in *. destruct (Nat.eq_dec la (g_dflt g)) as [->|Hn]; auto.
  destruct (comp_src s la d Hs Hin He Hn) as [[_ R]|[_ [t0 R]]]; eapply raw_le_dflt; eauto.
Qed.

Lemma comp_dd s dr : s < ns -> compressed g (acts p3 s) (acts p4 s) dr ->
  dd g (acts p4 s) = match dr with Some r => Reduce r | None => Error end.
Proof.
  intros Hs C. unfold dd. destruct dr as [r|].
  - rewrite (eff_unique _ _ (Reduce r)); auto.
    + apply (co_dflt _ _ _ _ C); eauto.
    + intros d' Hin He. apply (co_dflt _ _ _ _ C) in Hin as (r' & E & ->); auto. congruence.
  - destruct (eff (acts p4 s) (g_dflt g)) as [d|] eqn:E; auto. apply eff_in in E as [E1 E2].
    apply (co_dflt _ _ _ _ C) in E1 as (r' & E & _); auto. discriminate.
Qed.

Lemma comp_dd_ok s : s < ns -> exists r, dd g (acts p4 s) = Reduce r \/ dd g (acts p4 s) = Error.
Proof.
  intros Hs. destruct (pp_comp _ _ _ _ _ P s Hs) as [dr C]. rewrite (comp_dd s dr Hs C). destruct dr as [r|]; [exists r|exists 0]; auto.
Qed.

(** ** Reading the tables *)
Notation tcode := (code ns nr num).

Theorem shift_lookup s la d : s < ns -> tokenish g la -> slook g (acts p4 s) la d ->
  find_shift_action t (num s) la = LAct (tcode d).
Proof.
  intros Hs Ht Hd. destruct (pp_gen _ _ _ _ _ P) as (k & m & sy & dt & G & Hok).
  pose proof (find_shift_exact g W p4 t k m sy dt G) as HF. rewrite (pp_len4 _ _ _ _ _ P) in HF.
  apply HF; eauto using comp_sorted, comp_las, comp_dd_ok. apply (pp_fb _ _ _ _ _ P).
Qed.

Theorem shift_lookup_total s la : s < ns -> tokenish g la -> exists d, slook g (acts p4 s) la d /\
  find_shift_action t (num s) la = LAct (tcode d).
Proof.
  intros Hs Ht. destruct (slook_total g W p4 (acts p4 s) (pp_fb _ _ _ _ _ P) la) as [d Hd]. exists d. split; auto. now apply shift_lookup.
Qed.

Theorem reduce_lookup s X d : s < ns -> g_nterm g <= X < g_dflt g -> eff (acts p4 s) X = Some d ->
  find_reduce_action t (num s) X = LAct (tcode d).
Proof.
  intros Hs HX He. destruct (pp_gen _ _ _ _ _ P) as (k & m & sy & dt & G & Hok).
  pose proof (find_reduce_exact g W p4 t k m sy dt G) as HF. rewrite (pp_len4 _ _ _ _ _ P) in HF.
  apply HF; eauto using comp_sorted, comp_las.
Qed.

Theorem reduce_lookup_none s X : s < ns -> g_nterm g <= X < g_dflt g -> eff (acts p4 s) X = None ->
  find_reduce_action t (num s) X = LPanic \/
  (t_err t <> 0 /\ find_reduce_action t (num s) X = LAct (tcode (dd g (acts p4 s)))).
Proof.
  intros Hs HX He. destruct (pp_gen _ _ _ _ _ P) as (k & m & sy & dt & G & Hok).
  pose proof (find_reduce_none g W p4 t k m sy dt G) as HF. rewrite (pp_len4 _ _ _ _ _ P) in HF.
  apply HF; eauto using comp_sorted, comp_las, comp_dd_ok.
Qed.

(** ** What an answer of the table means (soundness) *)

(** where the lookup of [la] may look *)
Inductive looks_at (la : nat) : nat -> Prop :=
| la_fb b : falls_to g la b -> looks_at la b
| la_wild w : la <> 0 -> g_wild g = Some w -> looks_at la w.

Lemma falls_cons a c b : fb g a = Some c -> falls_to g c b -> falls_to g a b.
Proof.
  intros Hf H. induction H as [|b s0 c' H IH Hs Hc].
  - econstructor; [constructor|apply (gsym_fb g a c Hf)|exact Hf].
  - econstructor; eauto.
Qed.

Lemma slook_where l la d : slook g l la d -> (exists b, looks_at la b /\ eff l b = Some d) \/ d = dd g l.
Proof.
  induction 1 as [la d H|la c d H H0 Hf Hs IH|H|la w d H H0 Hf Hw He|la H H0 Hf Hw]; auto.
  - left. exists la. split; auto. constructor. constructor.
  - destruct IH as [(b & Hb & He)|?]; auto. left. exists b. split; auto. destruct Hb as [b Hb|w Hz Hw]; [constructor|now apply la_wild].
    eapply falls_cons; eauto.
  - left. exists w. split; auto. now apply la_wild.
Qed.

Lemma falls_tokenish la b : tokenish g la -> falls_to g la b -> tokenish g b.
Proof.
  intros Ht H. induction H as [|b s0 c H IH Hs Hc]; auto. eapply (tokenish_fb g W p b c); auto. unfold fb. now rewrite (gsym_nth g _ _ Hs).
Qed.
Lemma looks_tokenish la b : tokenish g la -> looks_at la b -> tokenish g b.
Proof.
  intros Ht [b' Hb|w _ Hw]; [eapply falls_tokenish; eauto|]. destruct (wg_wild g W _ Hw) as (H1 & _ & H2). now apply (tokenish_not_nt g W p).
Qed.

Lemma covers_member X m : tokenish g m -> X < List.length (g_syms g) -> covers g X m -> m < g_nterm g -> member g m X.
Proof.
  intros Ht HX C Hm. unfold covers in C. unfold member. destruct (kind_at g X) as [[| |ms]|] eqn:K; subst.
  - left. split; auto.
  - exfalso. apply (wg_nonterm g W) in K. lia.
  - right. eauto.
  - exfalso. rewrite (gsym_kind_at g X HX) in K. discriminate.
Qed.

Lemma falls_zero la b : falls_to g la b -> la = 0 \/ b = 0 -> la = b.
Proof.
  induction 1 as [|b s0 c H IH Hs Hc]; auto. intros Hz. destruct (wg_fb g W _ _ _ Hs Hc) as (Hb & _ & Hc0 & _).
  destruct Hz as [->|?]; [|contradiction]. rewrite <- IH in Hb by auto. contradiction.
Qed.
Lemma looks_zero b : looks_at 0 b -> b = 0.
Proof. intros [b' Hb|w Hz _]; [|contradiction]. symmetry. eapply falls_zero; eauto. Qed.
Lemma looks_at_zero la : looks_at la 0 -> la = 0.
Proof.
  intros H. remember 0 as z. destruct H as [b Hb|w _ Hw]; subst; [eapply falls_zero; eauto|].
  now destruct (wg_wild g W _ Hw) as (_ & ? & _).
Qed.
Lemma raw_zero s q : ~ raw g p s 0 (Shift q).
Proof.
  intros R. inversion R as [X q' m E C| |]; subst. destruct (edge_sym g W p A _ _ _ E) as (_ & HX & _). unfold covers in C.
  destruct (kind_at g X) as [[| |ms]|] eqn:K; try congruence. now destruct (wg_multi g W _ _ _ K C) as (_ & ? & _).
Qed.

(** A rule of the start symbol is only reduced at the end of the input. *)
Lemma start_look s r d b : look p s (r, d) b -> r_lhs (grule g r) = g_start g -> b = 0.
Proof.
  intros L. apply (au_look g p A) in L. remember (r, d) as k eqn:Ek. revert d Ek.
  induction L as [r' Hr'|s k k' b Hi Hk Hf|s k k' b H IH Hk Hn|s k X q b H IH Hp E]; intros d Ek Hl; auto.
  - exfalso. subst k'. destruct Hk as (X & HX & Hin & _). simpl in Hin. apply in_rules_of in Hin as (ru & Hru & <-).
    rewrite (grule_nth _ _ _ Hru) in Hl. rewrite Hl in HX. destruct (au_next g p A _ _ _ Hi HX) as [q E].
    now destruct (edge_sym g W p A _ _ _ E) as (_ & _ & _ & ?).
  - exfalso. subst k'. destruct Hk as (X & HX & Hin & _). simpl in Hin. apply in_rules_of in Hin as (ru & Hru & <-).
    rewrite (grule_nth _ _ _ Hru) in Hl. rewrite Hl in HX. destruct (au_next g p A _ _ _ (spread_item g p A _ _ _ H) HX) as [q E].
    now destruct (edge_sym g W p A _ _ _ E) as (_ & _ & _ & ?).
  - destruct k as [r1 d1]. unfold kadv in Ek. simpl in Ek. injection Ek as -> <-. eapply IH; eauto.
Qed.

Lemma raw_shift_match s la b q : tokenish g la -> looks_at la b -> raw g p s b (Shift q) ->
  exists X, edge g p s X q /\ tok_match g la X /\ la <> 0.
Proof.
  intros Ht Hb R. pose proof (looks_tokenish _ _ Ht Hb) as Htb.
  assert (Hbt : b < g_nterm g) by (pose proof (raw_le_dflt _ _ _ R); unfold tokenish in Htb; lia).
  inversion R as [X q' m E C| |]; subst. destruct (edge_sym g W p A _ _ _ E) as (HX & _).
  assert (Hz : la <> 0).
  { intros ->. rewrite (looks_zero b Hb) in *. now apply (raw_zero s q). }
  exists X. splits; auto. pose proof (covers_member X b Htb HX C Hbt) as Hm. unfold tok_match. destruct Hb as [b Hb|w _ Hw]; eauto.
Qed.

Inductive answer (s la : nat) : nat -> Prop :=
| an_shift X q : edge g p s X q -> tok_match g la X -> la <> 0 -> answer s la (num q)
| an_reduce r b : look p s (r, rlen g r) b -> (r_lhs (grule g r) = g_start g -> la = 0) -> answer s la (ns + r)
| an_error : answer s la (ns + nr).

Theorem shift_answer s la : s < ns -> tokenish g la -> exists a, find_shift_action t (num s) la = LAct a /\ answer s la a.
Proof.
  intros Hs Ht. destruct (shift_lookup_total s la Hs Ht) as (d & Hd & HF). exists (tcode d). split; auto.
  destruct (pp_comp _ _ _ _ _ P s Hs) as [dr C]. pose proof (comp_dd s dr Hs C) as Hdd.
  destruct (slook_where _ _ _ Hd) as [(b & Hb & He)| ->].
  - apply eff_in in He as [Hin Hem]. pose proof (looks_tokenish _ _ Ht Hb) as Htb.
    destruct (comp_src s b d Hs Hin Hem (tokenish_dflt g W p b Htb)) as [[Hl R]|[-> _]]; [|apply an_error].
    destruct d; try contradiction; simpl.
    + destruct (raw_shift_match s la b s0 Ht Hb R) as (X & E & T & Hz). eapply an_shift; eauto.
    + exfalso. inversion R; subst. pose proof (proj1 (wg_start g W)) as Hk. apply (wg_nonterm g W) in Hk. unfold tokenish in Htb. lia.
    + inversion R; subst. eapply an_reduce; eauto. intros Hst. apply looks_at_zero. erewrite <- (start_look s r _ b); eauto.
  - rewrite Hdd. destruct dr as [r|]; [|apply an_error].
    destruct (co_rule _ _ _ _ C r eq_refl) as (Hns & la0 & Hin). pose proof (settled_raw g p p3 s la0 _ (pp_settled _ _ _ _ _ P s Hs) Hin I) as R.
    inversion R; subst. simpl. eapply an_reduce; eauto. intros Hst. exfalso. unfold lhs_start in Hns. rewrite Hst, Nat.eqb_refl in Hns. discriminate.
Qed.

(** ** The rule table *)
Lemma rule_entry r : r < nr -> exists rr, nth_error (t_rules t) r = Some rr /\ rr_lhs rr = r_lhs (grule g r) /\
  map (fun x => (fst (fst x), snd (fst x))) (rr_rhs rr) = r_rhs (grule g r) /\ rr_code rr = r_code (grule g r) /\
  rr_dt rr = nth (r_lhs (grule g r)) (t_dts t) 0 /\ forall x, In x (rr_rhs rr) -> snd x = nth (fst (fst x)) (t_dts t) 0.
Proof.
  intros Hr. destruct (pp_gen _ _ _ _ _ P) as (k & m & sy & dt & G & _). pose proof (gn_rules _ _ _ _ _ _ _ G) as HR.
  rewrite (gn_dts _ _ _ _ _ _ _ G). apply (gmap_nth (translate_code g dt) dummy_rule dummy_rt) in HR as (L & _ & HR). simpl in L, HR. specialize (HR r Hr).
  exists (nth r (t_rules t) dummy_rt). split; [apply nth_error_nth'; lia|]. unfold translate_code in HR.
  apply gbind_ok in HR as (u & _ & HR). apply gbind_ok in HR as (u' & _ & HR). injection HR as HR. fold (grule g r) in HR. rewrite <- HR. cbn. splits; auto.
  - rewrite map_map. cbn. erewrite map_ext; [apply map_id|]. now intros [? ?].
  - intros x Hx. apply in_map_iff in Hx as (y & <- & _). reflexivity.
Qed.

(** ** Gotos *)
Lemma nonterm_raw s X d : g_nterm g <= X < g_dflt g -> raw g p s X d ->
  (exists q, d = Shift q /\ edge g p s X q) \/ (d = Accept /\ s = 0 /\ X = g_start g).
Proof.
  intros HX R. inversion R as [Y q m E C|r b _ Hb|Hs]; subst; try lia; auto.
  left. exists q. split; auto. destruct (edge_sym g W p A _ _ _ E) as (HY & _). unfold covers in C. destruct (kind_at g Y) as [[| |ms]|] eqn:K; subst; auto.
  exfalso. pose proof (pp_flat _ _ _ _ _ P Y ms X K C) as Hm. unfold is_term in Hm. apply (wg_term g W) in Hm; [lia|]. apply (kind_at_range _ _ _ Hm).
Qed.

Lemma nonterm_sole s X d : s < ns -> g_nterm g <= X < g_dflt g -> raw g p s X d -> eff (acts p4 s) X = Some d.
Proof.
  intros Hs HX R.
  assert (HU : forall d', raw g p s X d' -> d' = d).
  { intros d' R'. destruct (nonterm_raw _ _ _ HX R) as [(q & -> & E)|(-> & -> & ->)], (nonterm_raw _ _ _ HX R') as [(q' & -> & E')|(-> & E1 & E2)]; auto.
    - now rewrite (au_fun g p A _ _ _ _ E E').
    - subst. destruct (edge_sym g W p A _ _ _ E) as (_ & _ & _ & ?). congruence.
    - destruct (edge_sym g W p A _ _ _ E') as (_ & _ & _ & ?). congruence. }
  pose proof (pp_settled _ _ _ _ _ P s Hs) as S3. pose proof (sole_stays g p p3 s S3 X d R HU) as HG.
  destruct (pp_comp _ _ _ _ _ P s Hs) as [dr C].
  assert (Hin : In (mkAct X d) (acts p3 s)) by (apply group_acts; rewrite HG; now left).
  apply eff_unique.
  - apply (co_keep _ _ _ _ C); auto.
    + destruct (nonterm_raw _ _ _ HX R) as [(q & -> & E)|(-> & -> & ->)]; exact I.
    + intros r _ ->. destruct (nonterm_raw _ _ _ HX R) as [(q & ? & _)|(? & _)]; discriminate.
  - destruct (nonterm_raw _ _ _ HX R) as [(q & -> & E)|(-> & -> & ->)]; reflexivity.
  - intros d' Hin' He'. apply (co_mem _ _ _ _ C) in Hin'; auto; [|lia]. apply group_acts in Hin'. rewrite HG in Hin'. destruct Hin' as [E|[]]. congruence.
Qed.

Lemma nt_range X : kind_at g X = Some KNonTerm -> X <> g_dflt g -> g_nterm g <= X < g_dflt g.
Proof. intros K H. apply (wg_nonterm g W) in K. lia. Qed.

Theorem goto_lookup s X q : s < ns -> edge g p s X q -> kind_at g X = Some KNonTerm ->
  find_reduce_action t (num s) X = LAct (num q).
Proof.
  intros Hs E K. destruct (edge_sym g W p A _ _ _ E) as (HX & _ & Hd & _). pose proof (nt_range X K Hd) as HR.
  apply (reduce_lookup s X (Shift q) Hs HR). apply nonterm_sole; auto. eapply raw_shift; eauto. unfold covers. now rewrite K.
Qed.

Theorem accept_lookup : find_reduce_action t (num 0) (g_start g) = LAct (ns + nr + 1).
Proof.
  destruct (wg_start g W) as [K Hd]. pose proof (nt_range _ K Hd) as HR.
  apply (reduce_lookup 0 (g_start g) Accept (au_pos g p A) HR). apply nonterm_sole; auto; [apply (au_pos g p A)|]. now apply raw_accept.
Qed.

Theorem no_goto_lookup s X : s < ns -> kind_at g X = Some KNonTerm -> X <> g_dflt g -> (forall q, ~ edge g p s X q) -> X <> g_start g ->
  find_reduce_action t (num s) X = LPanic \/
  (t_err t <> 0 /\ exists a, find_reduce_action t (num s) X = LAct a /\ ns <= a <= ns + nr).
Proof.
  intros Hs K Hd Hn Hst. pose proof (nt_range X K Hd) as HR.
  assert (He : eff (acts p4 s) X = None).
  { destruct (eff (acts p4 s) X) as [d|] eqn:E; auto. exfalso. apply eff_in in E as [Hin He].
    destruct (comp_src s X d Hs Hin He Hd) as [[_ R]|[_ [t0 R]]]; destruct (nonterm_raw _ _ _ HR R) as [(q & _ & E)|(_ & _ & ?)]; eauto; eapply Hn; eauto. }
  destruct (reduce_lookup_none s X Hs HR He) as [?|[H1 H2]]; auto. right. split; auto. eexists. split; [exact H2|].
  destruct (pp_comp _ _ _ _ _ P s Hs) as [dr C]. rewrite (comp_dd s dr Hs C). destruct dr as [r|]; [|cbn; lia].
  destruct (co_rule _ _ _ _ C r eq_refl) as (_ & la0 & Hin). pose proof (settled_raw g p p3 s la0 _ (pp_settled _ _ _ _ _ P s Hs) Hin I) as R.
  inversion R as [|r' b (st & c & Hst' & Hc & Hk & _) _|]; subst.
  assert (Hi : item p s (r, rlen g r)) by (exists st, c; auto).
  pose proof (au_valid g p A _ _ Hi) as [Hru _]. cbn in Hru |- *. lia.
Qed.

(** Looking for the error symbol never panics. *)
Theorem error_lookup s : s < ns -> t_err t <> 0 -> exists a, find_reduce_action t (num s) (t_err t) = LAct a /\
  (a < ns -> exists q, a = num q /\ edge g p s (t_err t) q).
Proof.
  intros Hs Hne. pose proof Hne as Hne0. pose proof t_er as Et. destruct (1 <? sy_use (gsym g (g_error g))); [|contradiction].
  destruct (wg_error g W) as [K Hd]. pose proof (nt_range _ K Hd) as HR. rewrite Et in Hne |- *.
  destruct (eff (acts p4 s) (g_error g)) as [d|] eqn:E.
  - exists (tcode d). split; [now apply reduce_lookup|]. apply eff_in in E as [Hin He].
    destruct (comp_src s _ d Hs Hin He Hd) as [[Hl R]|[-> _]]; [|cbn; lia].
    destruct (nonterm_raw _ _ _ HR R) as [(q & -> & E)|(-> & _)]; [cbn; eauto|cbn; lia].
  - destruct (pp_gen _ _ _ _ _ P) as (k & m & sy & dt & G & Hok). exists (tcode (dd g (acts p4 s))). split.
    + pose proof (find_reduce_none_err g W p4 t k m sy dt G) as HF. rewrite (pp_len4 _ _ _ _ _ P) in HF.
      apply HF; eauto using comp_sorted, comp_las, comp_dd_ok.
      * apply (au_pos g p A).
      * assert (HP : packed g p4 k).
        { apply (k_packed g W p4 t k m sy dt G); rewrite (pp_len4 _ _ _ _ _ P); eauto using comp_sorted, comp_las. }
        assert (H04 : 0 < List.length (p_states p4)) by (rewrite (pp_len4 _ _ _ _ _ P); apply (au_pos g p A)).
        apply (proj2 (pk_ofs g p4 k HP 0 false H04)). destruct (wg_start g W) as [Ks Hsd]. pose proof (nt_range _ Ks Hsd) as HRs.
        pose proof (nonterm_sole 0 (g_start g) Accept (au_pos g p A) HRs (raw_accept _ _ _ eq_refl)) as Ha.
        apply eff_in in Ha as [Hin _]. unfold aset. intros En.
        enough (HI : In (g_start g, code (List.length (p_states p4)) nr num Accept) []) by exact HI.
        rewrite <- En. apply action_set_in. exists Accept. splits; auto. unfold keep.
        apply andb_true_iff. split; apply negb_true_iff; [apply Nat.ltb_ge|apply Nat.eqb_neq]; lia.
    + destruct (pp_comp _ _ _ _ _ P s Hs) as [dr C]. rewrite (comp_dd s dr Hs C). destruct dr; cbn; lia.
Qed.

(** ** The decided action of a state is what the table answers (completeness) *)
Definition decided (s la : nat) (d : detail) : Prop :=
  In (mkAct la d) (acts p3 s) /\ live d /\ ~ In (mkAct la Error) (acts p3 s).

Lemma first_at_none l b : first_at l b = None -> forall d, ~ In (mkAct b d) l.
Proof.
  unfold first_at. intros H d Hin. apply (find_none _ _ H) in Hin. simpl in Hin. rewrite Nat.eqb_refl in Hin. discriminate.
Qed.
Lemma first_at_some l b a : first_at l b = Some a -> In a l /\ a_la a = b.
Proof. unfold first_at. intros H. apply find_some in H as [H1 H2]. apply Nat.eqb_eq in H2. auto. Qed.

Theorem decided_slook s la d : s < ns -> tokenish g la -> decided s la d ->
  (g_wild g = None \/ exists q, d = Shift q) -> slook g (acts p4 s) la d.
Proof.
  intros Hs Ht (Hin & Hl & Hne) Hw. destruct (pp_comp _ _ _ _ _ P s Hs) as [dr C].
  pose proof (settled_grouped g W p A p3 s (pp_settled _ _ _ _ _ P s Hs)) as [G1 G2 G3 G4].
  assert (Hown : In (mkAct la d) (acts p4 s) -> slook g (acts p4 s) la d).
  { intros Hin4. apply sl_own. apply eff_unique; auto; [now apply live_emits|]. intros d' Hin' He'.
    apply (co_mem _ _ _ _ C) in Hin'; auto; [|now apply (tokenish_dflt g W p)].
    destruct (emits_cases d' He') as [Hl'| ->]; [|contradiction]. eapply G2; eauto. }
  assert (Hcase : (exists r, dr = Some r /\ d = Reduce r) \/ (forall r, dr = Some r -> d <> Reduce r)).
  { destruct dr as [r|]; [|right; discriminate]. destruct d; try (right; intros r' _; discriminate).
    destruct (Nat.eq_dec r r0) as [->|Hr]; [left; eauto|right]. intros r' E E'. congruence. }
  destruct Hcase as [(r & -> & ->)|Hk]; [|apply Hown, (co_keep _ _ _ _ C); auto].
  destruct (co_moved _ _ _ _ C la r eq_refl Hin) as [Hin4|Hch]; [auto|].
  destruct Hw as [Hw|[q ?]]; [|discriminate].
  assert (Heff : forall b, falls_to g la b -> eff (acts p4 s) b = None \/ eff (acts p4 s) b = Some (Reduce r)).
  { intros b Hb. destruct (eff (acts p4 s) b) as [d'|] eqn:E; auto. right. f_equal. apply eff_in in E as [E1 E2].
    pose proof (falls_tokenish _ _ Ht Hb) as Htb. apply (co_mem _ _ _ _ C) in E1; auto; [|now apply (tokenish_dflt g W p)].
    destruct (Hch b Hb) as [->|Hf].
    - destruct (emits_cases d' E2) as [Hl'| ->]; [|contradiction]. eapply G2; eauto; exact I.
    - destruct (first_at (acts p3 s) b) as [[b' d2]|] eqn:Ef; [|now apply first_at_none with (d := d') in Ef].
      simpl in Hf. subst d2. destruct (first_at_some _ _ _ Ef) as [F1 F2]. simpl in F2. subst b'.
      destruct (emits_cases d' E2) as [Hl'| ->].
      + eapply G2; eauto; exact I.
      + exfalso. eapply G3; eauto. }
  pose proof (comp_dd s _ Hs C) as Hdd. simpl in Hdd. rewrite <- Hdd.
  assert (HG : forall n b, fb_ends g n b -> falls_to g la b -> slook g (acts p4 s) b (dd g (acts p4 s))).
  { induction 1 as [b n Hf|b c n Hf He IH]; intros Hb.
    - destruct (Heff b Hb) as [E|E]; [|rewrite Hdd; now apply sl_own]. destruct (Nat.eq_dec b 0) as [->|]; [now apply sl_eoi|].
      apply sl_dflt; auto; intros w E'; congruence.
    - destruct (Heff b Hb) as [E|E]; [|rewrite Hdd; now apply sl_own]. apply sl_fb with c; auto.
      + apply (fb_nz g W _ _ Hf).
      + apply IH. econstructor; [exact Hb|apply (gsym_fb g b c Hf)|exact Hf]. }
  apply (HG (S (List.length (g_syms g))) la); [|constructor]. apply (fb_ends_acyclic g p (pp_fb _ _ _ _ _ P)).
Qed.

Theorem decided_lookup s la d : s < ns -> tokenish g la -> decided s la d ->
  (g_wild g = None \/ exists q, d = Shift q) -> find_shift_action t (num s) la = LAct (tcode d).
Proof. intros. apply shift_lookup; auto. now apply decided_slook. Qed.

(** A state that shifts the wildcard keeps all its own actions. *)
Theorem decided_wild s la d w q : s < ns -> tokenish g la -> decided s la d ->
  g_wild g = Some w -> sy_fb (gsym g w) = None -> In (mkAct w (Shift q)) (acts p3 s) -> find_shift_action t (num s) la = LAct (tcode d).
Proof.
  intros Hs Ht (Hin & Hl & Hne) Hw Hf Hq. apply shift_lookup; auto. destruct (pp_comp _ _ _ _ _ P s Hs) as [dr C].
  pose proof (co_wild _ _ _ _ C _ _ Hw Hf Hq) as ->. pose proof (settled_grouped g W p A p3 s (pp_settled _ _ _ _ _ P s Hs)) as [G1 G2 G3 G4].
  destruct (co_none _ _ _ _ C eq_refl) as [-> _]. apply sl_own, eff_unique; auto; [now apply live_emits|]. intros d' Hin' He'.
  destruct (emits_cases d' He') as [Hl'| ->]; [|contradiction]. eapply G2; eauto.
Qed.

(** A token without an action of its own is looked up as its fallback. *)
Theorem absent_lookup s la c : s < ns -> tokenish g la -> la <> 0 -> (forall d, ~ In (mkAct la d) (acts p3 s)) -> fb g la = Some c ->
  find_shift_action t (num s) la = find_shift_action t (num s) c.
Proof.
  intros Hs Ht H0 Hn Hf. assert (Hc : tokenish g c) by (eapply falls_tokenish; [exact Ht|]; econstructor; [constructor|apply (gsym_fb g la c Hf)|exact Hf]).
  destruct (shift_lookup_total s c Hs Hc) as (d & Hd & ->). apply shift_lookup; auto. apply sl_fb with c; auto.
  destruct (eff (acts p4 s) la) as [d'|] eqn:E; auto. exfalso. apply eff_in in E as [E1 E2]. destruct (pp_comp _ _ _ _ _ P s Hs) as [dr C].
  apply (co_mem _ _ _ _ C) in E1; auto; [|now apply (tokenish_dflt g W p)]. eapply Hn; eauto.
Qed.
End Pipe.

(** ** A successful build *)
Definition rows_apart (b : built) : Prop :=
  forall k, pack_states (bt_grammar b) (bt_comp b) = GOk k -> packing_ok (bt_grammar b) (bt_comp b) k.

(** What [build_fe] ran. *)
Record ran (fuel : nat) (ord : list (nat * nat) -> list (nat * nat)) (f : fe) (b : built) : Prop := {
  rn_prep : exists g0, prepare ord f = GOk g0 /\ normalize_rules (find_rule_precedences g0) = GOk (bt_grammar b);
  rn_first : find_first_sets fuel (bt_grammar b) = GOk (bt_firsts b);
  rn_states : exists p1, find_states fuel (bt_grammar b) (bt_firsts b) = GOk p1 /\
    find_follow_sets fuel (find_links p1) = GOk (bt_auto b);
  rn_acts : find_actions (bt_grammar b) (bt_auto b) = GOk (bt_acts b, 0);
  rn_comp : compress_tables fuel (bt_grammar b) (bt_acts b) = GOk (bt_comp b);
  rn_tables : generate_source (bt_grammar b) (bt_comp b) = GOk (bt_tables b) }.

Lemma build_fe_inv fuel ord f b : build_fe fuel ord f = GOk b -> ran fuel ord f b.
Proof.
  unfold build_fe. intros H. apply gbind_ok in H as (g0 & H0 & H). apply gbind_ok in H as (g & Hg & H).
  apply gbind_ok in H as (fi & Hfi & H). apply gbind_ok in H as (p1 & H1 & H). apply gbind_ok in H as (p2 & H2 & H).
  apply gbind_ok in H as ([p3 nc] & H3 & H). destruct (0 <? nc) eqn:En; [discriminate|]. apply Nat.ltb_ge in En.
  assert (nc = 0) by lia. subst nc. apply gbind_ok in H as (p4 & H4 & H). apply gbind_ok in H as (t & Ht & H).
  injection H as <-. constructor; cbn; eauto.
Qed.

Lemma ran_aut fuel ord f b : ran fuel ord f b -> wf_grammar (bt_grammar b) -> Aut (bt_grammar b) (bt_auto b).
Proof.
  intros [_ Hf (p1 & H1 & H2) _ _ _] W. eapply aut_main; eauto. now apply (find_first_sets_exact fuel).
Qed.

Lemma ran_pipe fuel ord f b : ran fuel ord f b -> wf_grammar (bt_grammar b) -> flat (bt_grammar b) ->
  acyclic_fb (bt_grammar b) -> rows_apart b -> Pipe (bt_grammar b) (bt_auto b) (bt_acts b) (bt_comp b) (bt_tables b).
Proof.
  intros R W Hfl Hac Hra. pose proof (ran_aut _ _ _ _ R W) as A. destruct R as [_ _ _ H3 H4 Ht].
  destruct (find_actions_spec _ W _ A _ H3) as (_ & L3 & S3 & _).
  destruct (compress_tables_spec _ _ _ _ H4) as (_ & L4 & S4).
  constructor; auto.
  - intros s Hs. now apply S3.
  - congruence.
  - intros s Hs. pose proof (S4 s ltac:(congruence)) as HC. eapply compress_state_spec in HC; eauto; [apply HC|].
    eapply settled_grouped; eauto. now apply S3.
  - destruct (generate_source_inv _ _ _ Ht) as (k & m & sy & dt & G). exists k, m, sy, dt. split; auto. apply Hra. apply (gn_pack _ _ _ _ _ _ _ G).
Qed.
