(** The lookups of the generated parser, in terms of the compressed action lists. *)
From Coq Require Import Sorted.
From Verif Require Import Base Syntax BaseFacts FrontEnd First States Actions Tables Runtime
  PackFacts Spec WfGrammar ActFacts CompFacts TabFacts.

(** ** What [generate_source] computes *)
Record generated (g : grammar) (p : pst) (t : tables) (k : packing) (m : typemap) (syms : list symbol) (dts : list nat) : Prop := {
  gn_types : type_symbols g = GOk (m, syms, dts);
  gn_pack : pack_states g p = GOk k;
  gn_ns : t_nstate t = List.length (p_states p);
  gn_nr : t_nrule t = List.length (g_rules g);
  gn_nsym : t_nsym t = List.length (g_syms g);
  gn_nterm : t_nterm t = g_nterm g;
  gn_wild : t_wild t = match g_wild g with Some w => w | None => 0 end;
  gn_wtype : forall w, g_wild g = Some w -> has_type g w = false;
  gn_err : t_err t = if 1 <? sy_use (gsym g (g_error g)) then g_error g else 0;
  gn_action : t_action t = map (fun e => match e with Some (_, a) => a | None => List.length (p_states p) + List.length (g_rules g) + 2 end) (k_tab k);
  gn_lookahead : t_lookahead t = map (fun e => match e with Some (l, _) => l | None => g_dflt g end) (k_tab k);
  gn_shift : ofst_table (state_order g p) (k_tofs k) (k_tmin k) = GOk (t_shift_ofst t);
  gn_smin : t_shift_min t = k_tmin k;
  gn_smax : t_shift_max t = k_tmax k;
  gn_reduce : ofst_table (state_order g p) (k_nofs k) (k_nmin k) = GOk (t_reduce_ofst t);
  gn_rmin : t_reduce_min t = k_nmin k;
  gn_rmax : t_reduce_max t = k_nmax k;
  gn_default : t_default t = map (fun s => k_dflt (nth s (all_counts g p) (mkCounts 0 0 0))) (state_order g p);
  gn_fallback : fallback_table syms dts = GOk (t_fallback t);
  gn_rules : gmapM (translate_code g dts) (g_rules g) = GOk (t_rules t);
  gn_dts : t_dts t = dts;
  gn_typed : t_typed t = map (fun s => opt_is_some (sy_type s)) syms;
  gn_root : t_root t = type_find m (match sy_type (nth (g_start g) syms dummy_sym) with Some t => t | None => TyUnit end);
  gn_names : t_names t = map sy_name (firstn (g_nterm g) syms) }.

Lemma generate_source_inv g p t : generate_source g p = GOk t -> exists k m syms dts, generated g p t k m syms dts.
Proof.
  unfold generate_source. intros H.
  apply gbind_ok in H as (w & Hw & H). apply gbind_ok in H as ([[m syms] dts] & Ht & H).
  apply gbind_ok in H as (u1 & _ & H). apply gbind_ok in H as (u2 & _ & H). apply gbind_ok in H as (u3 & _ & H).
  apply gbind_ok in H as (k & Hk & H). apply gbind_ok in H as (so & Hso & H). apply gbind_ok in H as (ro & Hro & H).
  apply gbind_ok in H as (fb & Hfb & H). apply gbind_ok in H as (rr & Hrr & H).
  exists k, m, syms, dts. inversion H; subst t; clear H.
  constructor; auto; cbn [t_wild].
  - destruct (g_wild g) as [w0|]; [|congruence]. destruct (has_type g w0); [discriminate|congruence].
  - intros w0 Ew. rewrite Ew in Hw. destruct (has_type g w0); [discriminate|auto].
Qed.

Lemma type_symbols_inv g m syms dts : type_symbols g = GOk (m, syms, dts) ->
  List.length syms = List.length (g_syms g) /\ List.length dts = List.length (g_syms g) /\
  forall i, sy_fb (nth i syms dummy_sym) = sy_fb (gsym g i) /\ sy_kind (nth i syms dummy_sym) = sy_kind (gsym g i) /\
            sy_name (nth i syms dummy_sym) = sy_name (gsym g i).
Proof.
  unfold type_symbols. intros H.
  set (P := fun (l : list nat) (st : typemap * list symbol * list nat) => let '(m, syms, dts) := st in
    List.length syms = List.length (g_syms g) /\ List.length dts = List.length l /\
    forall i, sy_fb (nth i syms dummy_sym) = sy_fb (gsym g i) /\ sy_kind (nth i syms dummy_sym) = sy_kind (gsym g i) /\
            sy_name (nth i syms dummy_sym) = sy_name (gsym g i)).
  assert (HG : forall l done s0 s1, gfold (type_symbol g) l s0 = GOk s1 -> P done s0 -> P (done ++ l) s1).
  { induction l as [|x l IH]; intros done s0 s1 Hg Hp; cbn [gfold] in Hg.
    - inversion Hg; subst. now rewrite app_nil_r.
    - apply gbind_ok in Hg as (s2 & H1 & H2).
      replace (done ++ x :: l) with ((done ++ [x]) ++ l) by (rewrite <- app_assoc; reflexivity).
      apply (IH _ s2 s1 H2). clear IH H2 H. destruct s0 as [[m0 sy0] d0]. unfold type_symbol in H1.
      destruct (opt_eqb _ _ _).
      { inversion H1; subst. unfold P in *. rewrite !app_length. simpl. destruct Hp as (P1 & P2 & P3). splits; auto; lia. }
      apply gbind_ok in H1 as (dt & _ & H1).
      set (dt' := match dt with Some t => Some t | None => _ end) in H1.
      assert (HP : forall mm dd, P (done ++ [x]) (mm, upd sy0 x (sym_set_type dt'), d0 ++ [dd])).
      { intros mm dd. unfold P in *. rewrite !app_length, upd_length. simpl. destruct Hp as (P1 & P2 & P3). split; auto. split; [lia|].
        intros i. destruct (P3 i) as (P4 & P5 & P6). rewrite nth_upd. destruct (_ && _) eqn:E; [|auto].
        apply andb_true_iff in E as [E _]. apply Nat.eqb_eq in E. subst x. simpl. auto. }
      destruct dt' as [ty|]; [destruct (type_find m0 ty)|]; inversion H1; subst; apply HP. }
  apply (HG _ [] _ _) in H; [|unfold P; simpl; auto]. simpl in H. rewrite seq_length in H. exact H.
Qed.

Lemma nth_error_firstn {A} : forall m i (l : list A), i < m -> nth_error (firstn m l) i = nth_error l i.
Proof. induction m; intros i l Hi; [lia|]. destruct l as [|x l], i; simpl; auto. apply IHm. lia. Qed.

Lemma map_nth_lt {A B} (f : A -> B) l i d e : i < List.length l -> nth i (map f l) d = f (nth i l e).
Proof. intros H. erewrite nth_error_nth; [reflexivity|]. rewrite nth_error_map, (nth_error_nth' _ e H). reflexivity. Qed.

Lemma ofst_table_spec g p ofs mn l s : ofst_table (state_order g p) ofs mn = GOk l -> s < List.length (p_states p) ->
  match nth s ofs None with
  | Some z => nth_error l (state_num g p s) = Some z
  | None => nth_error l (state_num g p s) = None \/ nth_error l (state_num g p s) = Some (mn - 1)%Z
  end.
Proof.
  unfold ofst_table. intros H Hs. pose proof (state_num_nth g p s Hs) as En.
  set (l0 := map (fun s => nth s ofs None) (state_order g p)) in *.
  assert (E0 : nth_error l0 (state_num g p s) = Some (nth s ofs None)) by (unfold l0; rewrite nth_error_map, En; reflexivity).
  destruct (rposition opt_is_some l0) as [n|] eqn:Er; [|discriminate].
  assert (El : l = map (fun o => match o with Some z => z | None => (mn - 1)%Z end) (firstn (S n) l0)) by congruence.
  clear H. rewrite El. clear El. apply rposition_some in Er as (a & Ha & Hb & Hc).
  destruct (Nat.lt_ge_cases (state_num g p s) (S n)) as [Hlt|Hge].
  - rewrite nth_error_map. assert (E1 : nth_error (firstn (S n) l0) (state_num g p s) = Some (nth s ofs None)).
    { rewrite <- E0. now apply nth_error_firstn. }
    rewrite E1. simpl. destruct (nth s ofs None); auto.
  - pose proof (Hc _ _ Hge E0) as Hx. destruct (nth s ofs None); [discriminate|].
    left. apply nth_error_None. rewrite map_length, firstn_length. lia.
Qed.

Lemma fallback_table_spec syms dts l i : fallback_table syms dts = GOk l ->
  nth i l 0 = match sy_fb (nth i syms dummy_sym) with Some c => c | None => 0 end.
Proof.
  unfold fallback_table. set (mx := match rposition _ syms with Some n => S n | None => 0 end). intros H.
  set (f := fun i => match sy_fb (nth i syms dummy_sym) with Some c => c | None => 0 end).
  assert (HG : forall n st acc l, gfold (fun acc i => match sy_fb (nth i syms dummy_sym) with
      | None => GOk (acc ++ [0])
      | Some fb => if (nth fb dts 0 =? 0) || (nth fb dts 0 =? nth i dts 0) then GOk (acc ++ [fb]) else GErr EFallbackType end)
      (seq st n) acc = GOk l -> l = acc ++ map f (seq st n)).
  { induction n as [|n IH]; intros st acc l0 Hg; cbn [seq gfold] in Hg.
    - inversion Hg. now rewrite app_nil_r.
    - apply gbind_ok in Hg as (acc1 & H1 & H2). apply IH in H2. cbn [seq map]. subst l0.
      assert (acc1 = acc ++ [f st]). { unfold f. destruct (sy_fb (nth st syms dummy_sym)); [|congruence]. destruct (_ || _); [congruence|discriminate]. }
      subst acc1. now rewrite <- app_assoc. }
  apply HG in H. subst l. simpl. fold (f i). destruct (Nat.lt_ge_cases i mx) as [Hi|Hi].
  - rewrite (nth_indep _ 0 (f 0)) by (rewrite map_length, seq_length; auto). rewrite map_nth, seq_nth; auto.
  - rewrite nth_overflow by (rewrite map_length, seq_length; auto). unfold f.
    destruct (sy_fb (nth i syms dummy_sym)) as [c|] eqn:E; auto. exfalso.
    assert (Hlen : i < List.length syms).
    { destruct (Nat.lt_ge_cases i (List.length syms)); auto. rewrite nth_overflow in E; auto. discriminate. }
    unfold mx in Hi. destruct (rposition _ syms) as [n|] eqn:Er.
    + apply rposition_some in Er as (a & _ & _ & Hc). assert (n < i) by lia.
      specialize (Hc i _ H (nth_error_nth' _ dummy_sym Hlen)). now rewrite E in Hc.
    + eapply rposition_none in Er; [|apply (nth_In _ dummy_sym Hlen)]. now rewrite E in Er.
Qed.

(** ** The lookup on action lists *)
Definition fb (g : grammar) (a : nat) : option nat := sy_fb (gsym g a).
Definition dd (g : grammar) (l : list action) : detail := match eff l (g_dflt g) with Some d => d | None => Error end.

Inductive slook (g : grammar) (l : list action) : nat -> detail -> Prop :=
| sl_own la d : eff l la = Some d -> slook g l la d
| sl_fb la c d : eff l la = None -> la <> 0 -> fb g la = Some c -> slook g l c d -> slook g l la d
| sl_eoi : eff l 0 = None -> slook g l 0 (dd g l)
| sl_wild la w d : eff l la = None -> la <> 0 -> fb g la = None -> g_wild g = Some w -> eff l w = Some d -> slook g l la d
| sl_dflt la : eff l la = None -> la <> 0 -> fb g la = None ->
    (forall w, g_wild g = Some w -> eff l w = None) -> slook g l la (dd g l).

Lemma slook_fun g l la d : slook g l la d -> forall d', slook g l la d' -> d' = d.
Proof.
  induction 1 as [la d H|la c d H H0 Hf Hs IH|H|la w d H H0 Hf Hw He|la H H0 Hf Hw]; intros d' H'; inversion H'; subst; try congruence;
    try (match goal with H1 : g_wild _ = Some ?w, H2 : forall w, g_wild _ = Some w -> _ |- _ => pose proof (H2 _ H1); congruence end).
  apply IH. congruence.
Qed.

(** Fallback chains end. *)
Inductive fb_ends (g : grammar) : nat -> nat -> Prop :=
| fe_stop a n : fb g a = None -> fb_ends g (S n) a
| fe_step a c n : fb g a = Some c -> fb_ends g n c -> fb_ends g (S n) a.

Definition acyclic_fb (g : grammar) : Prop := forall a c, fb g a = Some c -> ~ falls_to g c a.

Section Look.
Context (g : grammar) (W : wf_grammar g) (p : pst) (t : tables) (k : packing) (m : typemap) (syms : list symbol) (dts : list nat).
Context (G : generated g p t k m syms dts).
Let ns := List.length (p_states p).
Let nr := List.length (g_rules g).
Let num := state_num g p.
Notation acts s := (s_actions (pstate p s)).
Context (Hsort : forall s, s < ns -> la_sorted (acts s)).
Context (Hlas : forall s, s < ns -> las_ok g (pstate p s)).
(** default actions are reductions or errors: they do not mention state numbers *)
Context (Hdd : forall s, s < ns -> exists r, dd g (acts s) = Reduce r \/ dd g (acts s) = Error).

Lemma W_range : g_nterm g <= g_dflt g. Proof. apply (wg_dflt_range g W). Qed.

Lemma k_packed : packed g p k.
Proof. apply pack_states_spec; auto using W_range. apply (gn_pack _ _ _ _ _ _ _ G). Qed.

Lemma tab_probe o la : la <> g_dflt g ->
  match zidx (o + Z.of_nat la) (List.length (t_action t)) with
  | None => None
  | Some i => if nth i (t_lookahead t) 0 =? la then Some (nth i (t_action t) 0) else None
  end = probe k o la.
Proof.
  intros Hla. unfold probe. rewrite (gn_action _ _ _ _ _ _ _ G), (gn_lookahead _ _ _ _ _ _ _ G), map_length.
  destruct (zidx _ _) as [i|] eqn:E; auto. apply zidx_some in E as [_ Hi]. unfold cell.
  rewrite !(map_nth_lt _ _ i 0 None) by auto.
  rewrite (nth_error_nth' _ None Hi). destruct (nth i (k_tab k) None) as [[la' a]|]; auto.
  apply Nat.eqb_neq in Hla. rewrite Nat.eqb_sym, Hla. reflexivity.
Qed.

Lemma default_spec s : s < ns -> default_action t (num s) = LAct (code ns nr num (dd g (acts s))).
Proof.
  intros Hs. unfold default_action. rewrite (gn_default _ _ _ _ _ _ _ G), nth_error_map. unfold num. rewrite state_num_nth by auto. simpl.
  rewrite all_counts_nth by auto. destruct (state_counts_spec g ns nr (pstate p s) num W_range (Hlas s Hs)) as (_ & _ & E).
  fold ns nr. rewrite E. f_equal. destruct (Hdd s Hs) as (r & D). unfold dd in *. destruct (eff (acts s) (g_dflt g)) as [d|]; [|reflexivity].
  destruct D as [-> | ->]; reflexivity.
Qed.

(** Symbols a lookup may be asked for. *)
Definition tokenish (la : nat) : Prop := la < g_nterm g \/ (g_dflt g < la < List.length (g_syms g)).

Lemma tokenish_not_nt la : la < List.length (g_syms g) -> kind_at g la <> Some KNonTerm -> tokenish la.
Proof.
  intros Hl Hk. unfold tokenish. rewrite (wg_nonterm g W) in Hk. lia.
Qed.
Lemma tokenish_dflt la : tokenish la -> la <> g_dflt g.
Proof. unfold tokenish. pose proof W_range. lia. Qed.
Lemma tokenish_fb la c : tokenish la -> fb g la = Some c -> tokenish c.
Proof.
  intros H Hf. unfold fb in Hf. destruct (wg_fb g W la _ _ (gsym_fb g la c Hf) Hf) as (_ & H1 & _ & H2 & _). now apply tokenish_not_nt.
Qed.
Lemma fb_nz la c : fb g la = Some c -> la <> 0 /\ c <> 0.
Proof. intros Hf. unfold fb in Hf. destruct (wg_fb g W la _ _ (gsym_fb g la c Hf) Hf) as (? & _ & ? & _). auto. Qed.

Lemma eff_class s la : s < ns -> g_dflt g < la -> eff (acts s) la = None.
Proof.
  intros Hs Hl. apply eff_none. intros d Hin. destruct (emits d) eqn:E; auto. pose proof (Hlas s Hs _ Hin E). simpl in *. lia.
Qed.

Lemma no_ofs s : s < ns -> nth s (k_tofs k) None = None -> forall la, tokenish la -> eff (acts s) la = None.
Proof.
  intros Hs Ho la [Hla|[Hla _]]; [|now apply eff_class].
  assert (Hk : aset g p s true = []).
  { destruct (aset g p s true) eqn:E; auto. exfalso. apply (proj2 (pk_ofs g p k k_packed s true Hs)); auto. rewrite E. discriminate. }
  apply eff_none. intros d Hin. destruct (emits d) eqn:E; auto. exfalso.
  assert (Hin' : In (la, code ns nr num d) (aset g p s true)).
  { apply action_set_in. exists d. splits; auto. unfold keep. now apply Nat.ltb_lt. }
  rewrite Hk in Hin'. contradiction.
Qed.

(** Without a row of its own the state always takes its default action. *)
Lemma slook_no_row s la d : s < ns -> nth s (k_tofs k) None = None -> tokenish la -> slook g (acts s) la d -> d = dd g (acts s).
Proof.
  intros Hs Ho Ht H. pose proof (no_ofs s Hs Ho) as Hn. induction H as [la d H|la c d H H0 Hf Hl IH|H|la w d H H0 Hf Hw He|la H H0 Hf Hw]; auto.
  - rewrite Hn in H; auto. discriminate.
  - apply IH. eapply tokenish_fb; eauto.
  - destruct (wg_wild g W _ Hw) as (H1 & _ & H2). rewrite Hn in He; [discriminate|]. now apply tokenish_not_nt.
Qed.

Context (Hok : packing_ok g p k).

Lemma probe_eff s o la : s < ns -> nth s (k_tofs k) None = Some o -> tokenish la ->
  probe k o la = option_map (code ns nr num) (eff (acts s) la).
Proof.
  intros Hs Ho [Hla|[Hla _]].
  - apply (probe_exact g p k s true o la k_packed Hok Hs Ho). unfold keep. now apply Nat.ltb_lt.
  - rewrite (eff_class s la) by auto. apply (probe_class g p W_range Hlas k s true o la k_packed Hs Ho Hla).
Qed.

Lemma fallback_nth la : nth la (t_fallback t) 0 = match fb g la with Some c => c | None => 0 end.
Proof.
  rewrite (fallback_table_spec _ _ _ la (gn_fallback _ _ _ _ _ _ _ G)). unfold fb.
  destruct (type_symbols_inv _ _ _ _ (gn_types _ _ _ _ _ _ _ G)) as (_ & _ & H). destruct (H la) as [-> _]. reflexivity.
Qed.

Lemma find_shift_n s : s < ns -> forall n la d, tokenish la -> fb_ends g n la -> slook g (acts s) la d ->
  find_shift_action_n n t (num s) la = LAct (code ns nr num d).
Proof.
  intros Hs. pose proof (ofst_table_spec g p _ _ _ s (gn_shift _ _ _ _ _ _ _ G) Hs) as Hofs. fold num in Hofs.
  rewrite <- (gn_smin _ _ _ _ _ _ _ G) in Hofs.
  destruct (nth s (k_tofs k) None) as [o|] eqn:Eo.
  2:{ intros n la d Ht He Hd. rewrite (slook_no_row s la d Hs Eo Ht Hd). inversion He; subst; cbn [find_shift_action_n];
        destruct Hofs as [-> | ->]; rewrite ?Z.eqb_refl; now apply default_spec. }
  assert (Hmin : (o =? t_shift_min t - 1)%Z = false).
  { apply Z.eqb_neq. rewrite (gn_smin _ _ _ _ _ _ _ G). pose proof (pk_min g p k k_packed s true o Eo). simpl in *. lia. }
  induction n as [|n IH]; intros la d Ht He Hd; [inversion He|]. cbn [find_shift_action_n]. rewrite Hofs, Hmin.
  assert (Hsym : (la =? t_nsym t) = false).
  { apply Nat.eqb_neq. rewrite (gn_nsym _ _ _ _ _ _ _ G). unfold tokenish in Ht. pose proof (wg_dflt_range g W). lia. }
  rewrite Hsym, tab_probe, (probe_eff s o la Hs Eo Ht) by now apply tokenish_dflt.
  inversion Hd as [la' d' E|la' c d' E H0 Hf Hl|E|la' w d' E H0 Hf Hw Hw2|la' E H0 Hf Hw]; subst; rewrite E; simpl.
  - reflexivity.
  - apply Nat.eqb_neq in H0. rewrite H0, fallback_nth, Hf. destruct (fb_nz _ _ Hf) as [_ Hc]. apply Nat.eqb_neq in Hc. rewrite Hc. simpl.
    apply IH; auto; [eapply tokenish_fb; eauto|]. inversion He; congruence.
  - now apply default_spec.
  - apply Nat.eqb_neq in H0. rewrite H0, fallback_nth, Hf. simpl. rewrite (gn_wild _ _ _ _ _ _ _ G), Hw.
    destruct (wg_wild g W _ Hw) as (W1 & W2 & W3). apply Nat.eqb_neq in W2. rewrite W2.
    pose proof (tokenish_not_nt _ W1 W3) as Htw. pose proof (probe_eff s o w Hs Eo Htw) as Hp.
    rewrite <- tab_probe in Hp by now apply tokenish_dflt. rewrite Hw2 in Hp. simpl in Hp.
    destruct (zidx _ _) as [i|]; [|discriminate]. destruct (_ =? w); [|discriminate]. now inversion Hp.
  - apply Nat.eqb_neq in H0. rewrite H0, fallback_nth, Hf. simpl. rewrite (gn_wild _ _ _ _ _ _ _ G).
    destruct (g_wild g) as [w|] eqn:Ew; [|simpl; now apply default_spec].
    destruct (wg_wild g W _ Ew) as (W1 & W2 & W3). apply Nat.eqb_neq in W2. rewrite W2.
    pose proof (tokenish_not_nt _ W1 W3) as Htw. pose proof (probe_eff s o w Hs Eo Htw) as Hp.
    rewrite <- tab_probe in Hp by now apply tokenish_dflt. rewrite (Hw w eq_refl) in Hp. simpl in Hp.
    destruct (zidx _ _) as [i|]; [|now apply default_spec]. destruct (_ =? w); [discriminate|now apply default_spec].
Qed.

(** Enough steps for any acyclic chain. *)
Lemma fb_ends_acyclic : acyclic_fb g -> forall la, fb_ends g (S (List.length (g_syms g))) la.
Proof.
  intros Ha.
  assert (HG : forall n la vis, NoDup vis -> (forall v, In v vis -> v < List.length (g_syms g) /\ falls_to g v la /\ v <> la \/ False) ->
     List.length vis + n = S (List.length (g_syms g)) -> fb_ends g n la \/ n = 0).
  { induction n as [|n IH]; intros la vis Hn Hv Hl; auto. left.
    destruct (fb g la) as [c|] eqn:Ec; [|now constructor]. apply fe_step with c; auto.
    assert (Hla : la < List.length (g_syms g)) by (apply nth_error_Some; unfold fb in Ec; rewrite (gsym_fb g la c Ec); discriminate).
    destruct (IH c (la :: vis)) as [?| ->]; auto.
    - constructor; auto. intros Hin. destruct (Hv _ Hin) as [(_ & _ & ?)|[]]. contradiction.
    - intros v [<-|Hin]; left.
      + splits; auto.
        * econstructor; [constructor|apply (gsym_fb g la c Ec)|exact Ec].
        * intros E. subst. apply (Ha _ _ Ec). constructor.
      + destruct (Hv _ Hin) as [(V1 & V2 & V3)|[]]. splits; auto.
        * econstructor; [exact V2|apply (gsym_fb g la c Ec)|exact Ec].
        * intros ->. apply (Ha _ _ Ec). exact V2.
    - simpl. lia.
    - exfalso. assert (Hle : List.length (la :: vis) <= List.length (g_syms g)).
      { rewrite <- (seq_length (List.length (g_syms g)) 0). apply NoDup_incl_length.
        - constructor; auto. intros Hin. destruct (Hv _ Hin) as [(_ & _ & ?)|[]]. contradiction.
        - intros v [<-|Hin]; apply in_seq; [lia|]. destruct (Hv _ Hin) as [(V & _)|[]]. lia. }
      simpl in *. lia. }
  intros la. destruct (HG (S (List.length (g_syms g))) la []) as [?|?]; auto; try discriminate; try constructor; intros v [].
Qed.

Lemma fb_ends_le n la : fb_ends g n la -> forall n', n <= n' -> fb_ends g n' la.
Proof.
  induction 1 as [a n Hf|a c n Hf He IH]; intros n' Hle; (destruct n'; [lia|]); [now constructor|]. apply fe_step with c; auto. apply IH. lia.
Qed.

Theorem find_shift_exact s la d : acyclic_fb g -> s < ns -> tokenish la -> slook g (acts s) la d ->
  find_shift_action t (num s) la = LAct (code ns nr num d).
Proof.
  intros Ha Hs Ht Hd. unfold find_shift_action. apply find_shift_n; auto. rewrite (gn_nsym _ _ _ _ _ _ _ G). now apply fb_ends_acyclic.
Qed.

(** The lookup always answers. *)
Lemma slook_total l : acyclic_fb g -> forall la, exists d, slook g l la d.
Proof.
  intros Ha la. pose proof (fb_ends_acyclic Ha la) as H. induction H as [a n Hf|a c n Hf He IH].
  - destruct (eff l a) as [d|] eqn:E; [exists d; now constructor|]. destruct (Nat.eq_dec a 0) as [->|H0]; [eexists; now apply sl_eoi|].
    destruct (g_wild g) as [w|] eqn:Ew.
    + destruct (eff l w) as [d|] eqn:E2; [exists d; eapply sl_wild; eauto|]. eexists. apply sl_dflt; auto. intros w' E'. congruence.
    + eexists. apply sl_dflt; auto. intros w' E'. congruence.
  - destruct IH as [d Hd]. destruct (eff l a) as [d'|] eqn:E; [exists d'; now constructor|]. exists d. eapply sl_fb; eauto. apply (fb_nz _ _ Hf).
Qed.

(** ** Goto rows *)
Theorem find_reduce_exact s X d : s < ns -> g_nterm g <= X < g_dflt g -> eff (acts s) X = Some d ->
  find_reduce_action t (num s) X = LAct (code ns nr num d).
Proof.
  intros Hs HX He. unfold find_reduce_action.
  pose proof (ofst_table_spec g p _ _ _ s (gn_reduce _ _ _ _ _ _ _ G) Hs) as Hofs. fold num in Hofs.
  assert (Hk : keep g false X = true).
  { unfold keep. apply andb_true_iff. split; apply negb_true_iff; [apply Nat.ltb_ge|apply Nat.eqb_neq]; lia. }
  destruct (nth s (k_nofs k) None) as [o|] eqn:Eo.
  - rewrite Hofs. assert (Hmin : (o =? t_reduce_min t - 1)%Z = false).
    { apply Z.eqb_neq. rewrite (gn_rmin _ _ _ _ _ _ _ G). pose proof (pk_min g p k k_packed s false o Eo). simpl in *. lia. }
    rewrite Hmin. assert (Hsym : (X =? t_nsym t) = false).
    { apply Nat.eqb_neq. rewrite (gn_nsym _ _ _ _ _ _ _ G). pose proof (wg_dflt_range g W). lia. }
    rewrite Hsym, tab_probe by lia. rewrite (probe_exact g p k s false o X k_packed Hok Hs Eo Hk), He. reflexivity.
  - exfalso. apply eff_in in He as [Hin He].
    assert (Hin' : In (X, code ns nr num d) (aset g p s false)) by (apply action_set_in; exists d; auto).
    apply (proj2 (pk_ofs g p k k_packed s false Hs)); auto. intros E. rewrite E in Hin'. contradiction.
Qed.

(** Without an entry: the assertions of mod.rs 2843-2855 or the default action. *)
Theorem find_reduce_none s X : s < ns -> g_nterm g <= X < g_dflt g -> eff (acts s) X = None ->
  find_reduce_action t (num s) X = LPanic \/
  (t_err t <> 0 /\ find_reduce_action t (num s) X = LAct (code ns nr num (dd g (acts s)))).
Proof.
  intros Hs HX He. unfold find_reduce_action.
  pose proof (ofst_table_spec g p _ _ _ s (gn_reduce _ _ _ _ _ _ _ G) Hs) as Hofs. fold num in Hofs.
  assert (Hk : keep g false X = true).
  { unfold keep. apply andb_true_iff. split; apply negb_true_iff; [apply Nat.ltb_ge|apply Nat.eqb_neq]; lia. }
  assert (Hd : (if t_err t =? 0 then LPanic else default_action t (num s)) = LPanic \/
     (t_err t <> 0 /\ (if t_err t =? 0 then LPanic else default_action t (num s)) = LAct (code ns nr num (dd g (acts s))))).
  { destruct (Nat.eqb_spec (t_err t) 0); auto. right. split; auto. now apply default_spec. }
  destruct (nth s (k_nofs k) None) as [o|] eqn:Eo.
  - rewrite Hofs. destruct (o =? t_reduce_min t - 1)%Z; auto. destruct (X =? t_nsym t); auto. rewrite tab_probe by lia.
    rewrite (probe_exact g p k s false o X k_packed Hok Hs Eo Hk), He. exact Hd.
  - destruct Hofs as [-> | ->]; auto. rewrite (gn_rmin _ _ _ _ _ _ _ G), Z.eqb_refl. auto.
Qed.

(** States without gotos come after those with gotos, so they are beyond the end of
    YY_REDUCE_OFST. *)
Lemma resort_less_iff ks a b : resort_less ks a b = true <->
  let ka := nth a ks (mkCounts 0 0 0) in let kb := nth b ks (mkCounts 0 0 0) in
  k_nt kb < k_nt ka \/ (k_nt kb = k_nt ka /\ (k_tkn kb < k_tkn ka \/ (k_tkn kb = k_tkn ka /\ b < a))).
Proof.
  unfold resort_less. cbn zeta. rewrite !orb_true_iff, !andb_true_iff, !orb_true_iff, !andb_true_iff, !Nat.ltb_lt, !Nat.eqb_eq. tauto.
Qed.
Lemma resort_less_false ks a b : resort_less ks a b = false <->
  ~ (let ka := nth a ks (mkCounts 0 0 0) in let kb := nth b ks (mkCounts 0 0 0) in
  k_nt kb < k_nt ka \/ (k_nt kb = k_nt ka /\ (k_tkn kb < k_tkn ka \/ (k_tkn kb = k_tkn ka /\ b < a)))).
Proof. rewrite <- resort_less_iff. destruct (resort_less ks a b); intuition congruence. Qed.

Lemma resort_sorted ks l : sorted_by (resort_less ks) (ssort (resort_less ks) l).
Proof.
  apply ssort_sorted.
  - intros a b H. apply resort_less_iff in H. apply resort_less_false. cbn zeta in *. lia.
  - intros a b c H1 H2. rewrite resort_less_false in *. cbn zeta in *. lia.
Qed.

Lemma no_goto_row s : 0 < ns -> s < ns -> nth 0 (k_nofs k) None <> None -> nth s (k_nofs k) None = None ->
  nth_error (t_reduce_ofst t) (num s) = None.
Proof.
  intros H0 Hs Hrow Ho. pose proof (gn_reduce _ _ _ _ _ _ _ G) as HT. unfold ofst_table in HT.
  set (l0 := map (fun s => nth s (k_nofs k) None) (state_order g p)) in *.
  destruct (rposition opt_is_some l0) as [n|] eqn:Er; [|discriminate].
  assert (El : t_reduce_ofst t = map (fun o => match o with Some z => z | None => (k_nmin k - 1)%Z end) (firstn (S n) l0)) by congruence.
  rewrite El. apply nth_error_None. rewrite map_length, firstn_length.
  apply rposition_some in Er as (a & Ha & Hb & Hc).
  destruct (Nat.lt_ge_cases n (num s)) as [Hlt|Hge]; [lia|]. exfalso.
  pose proof (state_num_nth g p s Hs) as En. fold num in En.
  unfold l0 in Ha. rewrite nth_error_map in Ha. destruct (nth_error (state_order g p) n) as [s'|] eqn:En'; [|discriminate].
  injection Ha as Ea. assert (Hs' : s' < ns) by (apply (state_order_in g p); eapply nth_error_In; eauto).
  assert (Hnt : forall u, u < ns -> (nth u (k_nofs k) None <> None <-> k_nt (nth u (all_counts g p) (mkCounts 0 0 0)) <> 0)).
  { intros u Hu. rewrite (all_counts_nth g p u Hu). destruct (state_counts_spec g ns nr (pstate p u) num W_range (Hlas u Hu)) as (_ & E & _).
    fold ns nr. rewrite E. pose proof (pk_ofs g p k k_packed u false Hu) as HP. cbn [ofs_of] in HP. rewrite HP. unfold aset. fold ns nr num.
    destruct (action_set _ _ _ _ _ _); simpl; split; congruence || lia. }
  assert (K0 : k_nt (nth s (all_counts g p) (mkCounts 0 0 0)) = 0).
  { destruct (k_nt _) eqn:Ek; auto. exfalso. apply (proj2 (Hnt s Hs)); [lia|auto]. }
  assert (K1 : k_nt (nth s' (all_counts g p) (mkCounts 0 0 0)) <> 0).
  { apply (proj1 (Hnt s' Hs')). rewrite Ea. intros E. rewrite E in Hb. discriminate. }
  assert (Hne : num s <> n) by (intros E; rewrite E in En; assert (s = s') by congruence; subst; lia).
  assert (Hsz : s <> 0) by (intros ->; contradiction).
  unfold state_order, resort_states in En, En'. fold ns in En, En'. destruct ns as [|m'] eqn:Ens; [lia|].
  destruct (num s) as [|i] eqn:Ei; [simpl in En; congruence|]. destruct n as [|j]; [lia|]. simpl in En, En'.
  pose proof (resort_sorted (all_counts g p) (seq 1 m')) as HS. unfold sorted_by in HS.
  assert (Hf : resort_less (all_counts g p) s' s = false).
  { assert (Hij : i < j) by lia. clear -HS En En' Hij. revert i j En En' Hij. induction HS as [|x l H IH HF]; intros [|i] [|j] E1 E2 Hij; try discriminate; try lia.
    - simpl in E1, E2. injection E1 as ->. rewrite Forall_forall in HF. apply HF. eapply nth_error_In; eauto.
    - simpl in E1, E2. eapply IH; eauto. lia. }
  apply resort_less_false in Hf. apply Hf. cbn zeta. lia.
Qed.

Theorem find_reduce_none_err s X : 0 < ns -> nth 0 (k_nofs k) None <> None -> s < ns -> g_nterm g <= X < g_dflt g ->
  eff (acts s) X = None -> t_err t <> 0 ->
  find_reduce_action t (num s) X = LAct (code ns nr num (dd g (acts s))).
Proof.
  intros H0 Hrow Hs HX He Hne. unfold find_reduce_action.
  pose proof (ofst_table_spec g p _ _ _ s (gn_reduce _ _ _ _ _ _ _ G) Hs) as Hofs. fold num in Hofs.
  assert (Hk : keep g false X = true).
  { unfold keep. apply andb_true_iff. split; apply negb_true_iff; [apply Nat.ltb_ge|apply Nat.eqb_neq]; lia. }
  apply Nat.eqb_neq in Hne. rewrite Hne. pose proof (default_spec s Hs) as Hd.
  destruct (nth s (k_nofs k) None) as [o|] eqn:Eo.
  - rewrite Hofs. rewrite (gn_rmin _ _ _ _ _ _ _ G).
    assert (Ho : ofs_of k s false = Some o) by exact Eo. pose proof (pk_min g p k k_packed s false o Ho) as Hm. cbn [min_of] in Hm.
    destruct (Z.eqb_spec o (k_nmin k - 1)); [lia|].
    rewrite (gn_nsym _ _ _ _ _ _ _ G). pose proof (wg_dflt_range g W). destruct (Nat.eqb_spec X (List.length (g_syms g))); [lia|].
    rewrite tab_probe by lia. rewrite (probe_exact g p k s false o X k_packed Hok Hs Eo Hk), He. exact Hd.
  - rewrite (no_goto_row s H0 Hs Hrow Eo). exact Hd.
Qed.
End Look.
