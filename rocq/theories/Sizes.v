(** The element types of the emitted arrays.  mod.rs 484-502, 2100-2101, 2453, 2467, 2489, 2507, 2554. *)
From Coq Require Import Permutation.
From Verif Require Import Base Syntax BaseFacts FrontEnd First States Actions Tables Runtime Spec PackFacts WfGrammar AutoFacts ActFacts CompFacts GroupFacts TabFacts LookFacts PipeFacts PackMore.
Open Scope nat_scope.

Definition fits_signed (bits z : Z) : Prop := (- 2 ^ (bits - 1) <= z < 2 ^ (bits - 1))%Z.
Definition fits_unsigned (bits z : Z) : Prop := (0 <= z < 2 ^ bits)%Z.
(** The element types: of YY_LOOKAHEAD and YY_RULE_INFO, of YY_DEFAULT, of YY_SHIFT_OFST and of
    YY_REDUCE_OFST *)
Definition code_bits (t : tables) : Z := minimum_signed_bits (Z.of_nat (t_nsym t)).
Definition default_bits (t : tables) : Z := minimum_unsigned_bits (Z.of_nat (t_nstate t + t_nrule t + 5)).
Definition shift_bits (t : tables) : Z := minimum_signed_bits (t_shift_max t).
Definition reduce_bits (t : tables) : Z := minimum_signed_bits (t_reduce_max t).

Lemma signed_upper m z : (0 <= z <= m)%Z -> (m < 2 ^ 31)%Z -> fits_signed (minimum_signed_bits m) z.
Proof.
  intros H1 H2. unfold fits_signed, minimum_signed_bits. destruct (Z.ltb_spec m 128); [change (2 ^ (8 - 1))%Z with 128%Z; lia|].
  destruct (Z.ltb_spec m 32768); [change (2 ^ (16 - 1))%Z with 32768%Z; lia|]. change (2 ^ (32 - 1))%Z with (2 ^ 31)%Z. lia.
Qed.
Lemma unsigned_upper m z : (0 <= z <= m)%Z -> (m < 2 ^ 32)%Z -> fits_unsigned (minimum_unsigned_bits m) z.
Proof.
  intros H1 H2. unfold fits_unsigned, minimum_unsigned_bits. destruct (Z.ltb_spec m 256); [change (2 ^ 8)%Z with 256%Z; lia|].
  destruct (Z.ltb_spec m 65536); [change (2 ^ 16)%Z with 65536%Z; lia|]. lia.
Qed.
Lemma signed_range m z lo : (- lo <= z <= m)%Z -> (m < 2 ^ 31)%Z -> (lo <= 128)%Z -> fits_signed (minimum_signed_bits m) z.
Proof.
  intros H1 H2 H3. unfold fits_signed, minimum_signed_bits. destruct (Z.ltb_spec m 128); [change (2 ^ (8 - 1))%Z with 128%Z; lia|].
  destruct (Z.ltb_spec m 32768); [change (2 ^ (16 - 1))%Z with 32768%Z; lia|]. change (2 ^ (32 - 1))%Z with (2 ^ 31)%Z. lia.
Qed.

Section Sizes.
Context (fuel : nat) (ord : list (nat * nat) -> list (nat * nat)) (f : fe) (b : built) (R : ran fuel ord f b) (W : wf_grammar (bt_grammar b)) (F : flat (bt_grammar b)).
Notation g := (bt_grammar b). Notation p := (bt_comp b). Notation t := (bt_tables b).
Notation ns := (List.length (p_states p)). Notation nr := (List.length (g_rules g)). Notation num := (state_num g p).

Lemma row_la s w e : s < ns -> In e (aset g p s w) -> fst e < g_dflt g.
Proof.
  destruct e as [la x]. intros Hs H. apply action_set_in in H as (d & Hd & Hk & He & _). pose proof (comp_fine _ _ _ _ R W F s Hs _ Hd He) as HL. cbn in *.
  assert (la <> g_dflt g); [|lia]. intros ->. rewrite (keep_dflt g p (built_rows _ _ _ _ R W)) in Hk. discriminate.
Qed.
Lemma insert_low tab set ofs tab' : insert_action_set tab set = GOk (ofs, tab') -> exists e, In e set /\ (- Z.of_nat (fst e) <= ofs)%Z.
Proof.
  unfold insert_action_set. destruct set as [|[mn mact] set]; [discriminate|]. intros H. injection H as H _. exists (mn, mact). split; [now left|]. cbn [fst]. lia.
Qed.
Lemma pack_low k : pack_states g p = GOk k -> forall w, (1 - Z.of_nat (g_dflt g) <= min_of k w)%Z.
Proof.
  pose proof (wg_dflt_range _ W) as Hd. pose proof (wg_nterm_pos _ W) as Hp.
  unfold pack_states, pack_all. intros H.
  assert (HG : forall l k0 k1, gfold (pack_one g ns nr num (p_states p)) l k0 = GOk k1 -> (forall s w n, In (s, w, n) l -> s < ns) ->
    (forall w, (1 - Z.of_nat (g_dflt g) <= min_of k0 w)%Z) -> forall w, (1 - Z.of_nat (g_dflt g) <= min_of k1 w)%Z).
  { induction l as [|[[s w] n] l IH]; intros k0 k1 Hg Hl H0; cbn [gfold] in Hg; [now injection Hg as <-|].
    apply gbind_ok in Hg as (k2 & H1 & H2). apply (IH k2 k1 H2); [intros; eapply Hl; right; eauto|]. intros w'.
    unfold pack_one in H1. destruct (n =? 0); [now injection H1 as <-|]. apply gbind_ok in H1 as ([ofs tab] & Hi & H1).
    change (nth s (p_states p) dummy_state) with (pstate p s) in Hi. fold (aset g p s w) in Hi. apply insert_low in Hi as (e & He & Hlow).
    apply row_la in He; [|eapply Hl; now left]. pose proof (H0 true) as HT. pose proof (H0 false) as HF. destruct w; injection H1 as <-; destruct w'; unfold min_of in *; cbn [k_tmin k_nmin] in *; lia. }
  apply (HG _ _ _ H).
  - intros s w n Hin. apply ax_sets_in in Hin as [Hin _]. now apply state_order_in in Hin.
  - intros []; unfold min_of; cbn [k_tmin k_nmin]; lia.
Qed.
Lemma ofst_in order ofs mn l o : ofst_table order ofs mn = GOk l -> In o l -> o = (mn - 1)%Z \/ exists s, nth s ofs None = Some o.
Proof.
  unfold ofst_table. destruct (rposition _ _) as [n|]; [|discriminate]. intros H Hin. injection H as <-. apply in_map_iff in Hin as (x & Hx & Hin).
  destruct x as [z|]; [|auto]. subst z. right. assert (Hin' : In (Some o) (map (fun s => nth s ofs None) order)).
  { rewrite <- (firstn_skipn (S n) (map (fun s => nth s ofs None) order)). apply in_or_app. now left. }
  apply in_map_iff in Hin' as (s & Hs & _). eauto.
Qed.

(** All offsets lie between minus the number of symbols and the largest offset. *)
Theorem offsets_range : (forall o, In o (t_shift_ofst t) -> (- Z.of_nat (t_nsym t) < o <= t_shift_max t)%Z) /\ (forall o, In o (t_reduce_ofst t) -> (- Z.of_nat (t_nsym t) < o <= t_reduce_max t)%Z).
Proof.
  destruct (generate_source_inv _ _ _ (rn_tables _ _ _ _ R)) as (k & m & sy & dt & G). pose proof (rf_sort _ _ (built_rows _ _ _ _ R W)) as HS. pose proof (comp_fine _ _ _ _ R W F) as HL.
  pose proof (k_packed g W p t k m sy dt G HS HL) as PK. pose proof (pack_low k (gn_pack _ _ _ _ _ _ _ G)) as LO. pose proof (wg_dflt_range _ W) as Hd.
  rewrite (gn_nsym _ _ _ _ _ _ _ G), (gn_smax _ _ _ _ _ _ _ G), (gn_rmax _ _ _ _ _ _ _ G). split; intros o Hin.
  - pose proof (pk_neg g p k PK true) as Ng. pose proof (LO true). destruct (ofst_in _ _ _ _ _ (gn_shift _ _ _ _ _ _ _ G) Hin) as [->|(s & Hs)]; [unfold min_of, max_of in *; lia|]. pose proof (pk_min g p k PK s true o Hs). unfold min_of, max_of in *. lia.
  - pose proof (pk_neg g p k PK false) as Ng. pose proof (LO false). destruct (ofst_in _ _ _ _ _ (gn_reduce _ _ _ _ _ _ _ G) Hin) as [->|(s & Hs)]; [unfold min_of, max_of in *; lia|]. pose proof (pk_min g p k PK s false o Hs). unfold min_of, max_of in *. lia.
Qed.
Lemma max_pos : (0 <= t_shift_max t)%Z /\ (0 <= t_reduce_max t)%Z.
Proof.
  destruct (generate_source_inv _ _ _ (rn_tables _ _ _ _ R)) as (k & m & sy & dt & G). pose proof (rf_sort _ _ (built_rows _ _ _ _ R W)) as HS. pose proof (comp_fine _ _ _ _ R W F) as HL.
  pose proof (k_packed g W p t k m sy dt G HS HL) as PK. rewrite (gn_smax _ _ _ _ _ _ _ G), (gn_rmax _ _ _ _ _ _ _ G). split; [apply (pk_neg g p k PK true)|apply (pk_neg g p k PK false)].
Qed.

(** With at most 128 symbols every offset fits; otherwise one fits exactly if it is not below the
    range of the type chosen from the largest. *)
Theorem offsets_fit : (t_shift_max t < 2 ^ 31)%Z -> (t_reduce_max t < 2 ^ 31)%Z -> t_nsym t <= 129 ->
  Forall (fits_signed (shift_bits t)) (t_shift_ofst t) /\ Forall (fits_signed (reduce_bits t)) (t_reduce_ofst t).
Proof.
  intros H1 H2 H3. destruct offsets_range as [O1 O2]. split; apply Forall_forall; intros o Ho; [apply O1 in Ho|apply O2 in Ho]; apply (signed_range _ _ 128); lia.
Qed.
Theorem offsets_fit_iff : (t_shift_max t < 2 ^ 31)%Z -> (t_reduce_max t < 2 ^ 31)%Z ->
  (forall o, In o (t_shift_ofst t) -> fits_signed (shift_bits t) o <-> (- 2 ^ (shift_bits t - 1) <= o)%Z) /\
  (forall o, In o (t_reduce_ofst t) -> fits_signed (reduce_bits t) o <-> (- 2 ^ (reduce_bits t - 1) <= o)%Z).
Proof.
  intros H1 H2. destruct offsets_range as [O1 O2]. destruct max_pos as [M1 M2]. split; intros o Ho; [apply O1 in Ho|apply O2 in Ho]; (split; [unfold fits_signed; tauto|]); intros HL; split; auto.
  - pose proof (signed_upper (t_shift_max t) (t_shift_max t) ltac:(lia) H1) as [_ HU]. unfold shift_bits. lia.
  - pose proof (signed_upper (t_reduce_max t) (t_reduce_max t) ltac:(lia) H2) as [_ HU]. unfold reduce_bits. lia.
Qed.

Theorem codes_fit : (Z.of_nat (t_nsym t) < 2 ^ 31)%Z ->
  Forall (fun la => fits_signed (code_bits t) (Z.of_nat la)) (t_lookahead t) /\ Forall (fun r => fits_signed (code_bits t) (Z.of_nat (rr_lhs r))) (t_rules t).
Proof.
  intros HB. destruct (generate_source_inv _ _ _ (rn_tables _ _ _ _ R)) as (k & m & sy & dt & G). pose proof (rf_sort _ _ (built_rows _ _ _ _ R W)) as HS. pose proof (comp_fine _ _ _ _ R W F) as HL.
  pose proof (k_packed g W p t k m sy dt G HS HL) as PK. pose proof (wg_dflt_range _ W) as Hd. pose proof (gn_nsym _ _ _ _ _ _ _ G) as EN. split; apply Forall_forall.
  - intros la Hin. apply signed_upper; auto. rewrite (gn_lookahead _ _ _ _ _ _ _ G) in Hin. apply in_map_iff in Hin as (e & <- & Hin). destruct e as [[l a]|]; [|lia].
    apply In_nth_error in Hin as (i & Hi). destruct (pk_tab g p k PK) as [T1 _]. destruct (T1 i l a) as (set & o & (s & w & Hs & _ & ->) & _ & Hl); [unfold cell; now rewrite Hi|].
    apply last_assoc_in, (row_la s w) in Hl; auto. cbn in Hl. lia.
  - intros rr Hin. apply signed_upper; auto. pose proof (gn_rules _ _ _ _ _ _ _ G) as HR. unfold gmapM in HR.
    assert (HA : forall l acc l', gfold (fun acc a => rb <-! translate_code g dt a ; GOk (acc ++ [rb])) l acc = GOk l' -> (forall r, In r acc -> rr_lhs r < List.length (g_syms g)) -> incl l (g_rules g) -> forall r, In r l' -> rr_lhs r < List.length (g_syms g)).
    { induction l as [|ru l IH]; intros acc l' Hg Ha Hi; cbn [gfold] in Hg; [now injection Hg as <-|]. apply gbind_ok in Hg as (acc' & H1 & H2). apply (IH acc' l' H2); [|intros x Hx; apply Hi; now right].
      apply gbind_ok in H1 as (rb & Hb & H1). injection H1 as <-. intros r Hr. apply in_app_or in Hr as [Hr|[<-|[]]]; auto.
      unfold translate_code in Hb. apply gbind_ok in Hb as (_ & _ & Hb). apply gbind_ok in Hb as (_ & _ & Hb). injection Hb as <-. cbn.
      assert (Hru : In ru (g_rules g)) by (apply Hi; now left). apply In_nth_error in Hru as (i & Hi'). pose proof (wg_rule _ W _ _ Hi') as (K & _). eapply kind_at_range; eauto. }
    pose proof (HA _ _ _ HR ltac:(intros ? []) (incl_refl _) rr Hin). lia.
Qed.

Theorem defaults_fit : (Z.of_nat (t_nstate t + t_nrule t + 5) < 2 ^ 32)%Z -> Forall (fun d => fits_unsigned (default_bits t) (Z.of_nat d)) (t_default t).
Proof.
  intros HB. destruct (generate_source_inv _ _ _ (rn_tables _ _ _ _ R)) as (k & m & sy & dt & G). pose proof (comp_fine _ _ _ _ R W F) as HL.
  apply Forall_forall. intros d Hin. apply unsigned_upper; auto. rewrite (gn_ns _ _ _ _ _ _ _ G), (gn_nr _ _ _ _ _ _ _ G). rewrite (gn_default _ _ _ _ _ _ _ G) in Hin. apply in_map_iff in Hin as (s & <- & Hs).
  apply state_order_in in Hs. rewrite all_counts_nth by auto. destruct (state_counts_spec g ns nr (pstate p s) num (W_range g W) (HL s Hs)) as (_ & _ & E). rewrite E.
  assert (HD : forall d, eff (s_actions (pstate p s)) (g_dflt g) = Some d -> code ns nr (fun x => x) d <= ns + nr + 5).
  { intros d Hd. apply eff_in in Hd as [Hd He]. pose proof (ran_aut _ _ _ _ R W) as A. destruct R as [_ _ _ H3 H4 _].
    destruct (find_actions_spec _ W _ A _ H3) as (_ & L3 & S3 & _). destruct (compress_tables_spec _ _ _ _ H4) as (_ & L4 & S4). destruct (S3 s) as [S _]; [congruence|].
    destruct (compress_state_spec _ W _ _ _ (settled_grouped _ W _ A _ s S) (S4 s ltac:(congruence))) as [_ (dr & C)].
    apply (co_dflt _ _ _ _ C) in Hd as (r & -> & ->); auto. destruct (co_rule _ _ _ _ C r eq_refl) as (_ & la & Hr). pose proof (settled_raw _ _ _ _ _ _ S Hr I) as Rr.
    inversion Rr as [|? ? (st & c & ? & ? & ? & _) _|]; subst. assert (Hit : item (bt_auto b) s (r, rlen g r)) by (exists st, c; auto). destruct (au_valid _ _ A _ _ Hit) as [Lr _]. cbn in *. lia. }
  destruct (eff _ _) as [d|] eqn:Ed; [|cbn; lia]. specialize (HD d eq_refl). lia.
Qed.
End Sizes.
