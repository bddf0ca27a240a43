(** Every call of [parse] and [end_of_input] returns when the stack has a limit, or can only grow so far (C06). *)
From Verif Require Import Base Syntax BaseFacts FrontEnd First States Actions Tables Runtime
  PackFacts Spec WfGrammar FirstFacts ClosureFacts AutoFacts LalrFacts ActFacts CompFacts GroupFacts
  TabFacts LookFacts PipeFacts RunFacts SoundFacts SafeFacts AbsFacts HaltFacts TermFacts LimitFacts.

Lemma first_lt g : wf_grammar g -> flat g -> forall b,
  (forall X, first g b X -> b < g_nterm g) /\ (forall Xs, first_all g b Xs -> b < g_nterm g).
Proof.
  intros W F b. apply first_both; auto. intros X [[_ H]|(ms & K & I)]; [now apply is_term_lt|].
  apply is_term_lt; auto. eapply F; eauto.
Qed.
Lemma lr1_lt g gamma r d b : wf_grammar g -> flat g -> lr1 g gamma r d b -> b < g_nterm g.
Proof. intros W F H. induction H; auto; [apply (wg_nterm_pos g W)|]. eapply first_lt; eauto. Qed.

Section Term.
Context (g : grammar) (p p3 p4 : pst) (t : tables) (P : Pipe g p p3 p4 t).
Context {M X E R : Type} (h : hooks M X E R).
Let W := pp_wf _ _ _ _ _ P.
Let A := pp_aut _ _ _ _ _ P.
Notation ns := (List.length (p_states p)).
Notation nr := (List.length (g_rules g)).
Notation num := (state_num g p4).
Notation spine := (spine g p p4 (M := M)).
Notation aspine := (aspine g p unit).
Context (K T : nat -> M -> Prop) (HK : hooks_ok g t h K T).
Notation safe := (safe g p p4 (M := M) (X := X) (R := R) K).
Notation on_track := (on_track g p p4 (M := M) (X := X) (R := R) K).

Lemma spine_len st Xs s : spine st Xs s -> List.length st = List.length Xs.
Proof. induction 1; cbn; auto. Qed.

Lemma out_of_fuel_run a m : tok_ok g T a m -> forall i (pp : parser M X R) st Xs s bot c, ps_status pp = Normal ->
  spine st Xs s -> ps_stack pp = st ++ [bot] -> e_state bot = num 0 -> typed_stack K st Xs -> aspine c Xs ->
  parse_token_2 (S i) t h pp a m = RFuel -> exists n c', run g p 0 n i c c' /\ (t_limit t <> 0 -> n <= t_limit t).
Proof.
  intros Htok. induction i as [|i IH]; intros pp st Xs s bot c Hn Hsp Est Hb Ht Hc H; [exists 0, c; split; [constructor|lia]|].
  rewrite parse_token_2_S, Hn in H.
  destruct (spine_top g p p4 st Xs s bot Hsp Hb) as (tp & rest & Et & Etop). rewrite Est, Et, Etop in H.
  destruct (shift_answer g p p3 p4 t P s a (spine_range g p p3 p4 t P _ _ _ Hsp) (tok_ok_tokenish g p p3 p4 t P T _ _ Htok)) as (ac & Ea0 & HA).
  rewrite Ea0 in H. clear Ea0.
  rewrite (t_ns g p p3 p4 t P), (t_nr g p p3 p4 t P) in H. inversion HA as [Y q Hq Hm Hz Ea|r b Hl Hz Ea|Ea]; subst ac.
  - pose proof (num_lt g p p3 p4 t P q (proj1 (au_edge g p A _ _ _ Hq))) as Hlt. apply Nat.ltb_lt in Hlt. rewrite Hlt in H.
    destruct (a =? 0); [discriminate|].
    destruct (yy_shift_cases t h pp (num q) a m) as [E1|(e & pp' & E1)]; rewrite E1 in H; discriminate.
  - replace (ns + r <? ns) with false in H by (symmetry; apply Nat.ltb_ge; lia).
    pose proof (look_item p _ _ _ Hl) as Hi. pose proof (item_rule g p p3 p4 t P _ _ _ Hi) as Hr.
    replace (ns + r <? ns + nr) with true in H by (symmetry; apply Nat.ltb_lt; lia). replace (ns + r - ns) with r in H by lia.
    destruct (yy_reduce_eq g p p3 p4 t P h pp r st Xs s bot Hsp Est Hb Hi) as (st1 & st2 & Xs1 & Xs2 & s0 & -> & -> & L & HX & Hs & HC).
    destruct (forall2_app_inv _ _ _ _ _ (eq_sym L) Ht) as [Ht1 Ht2].
    assert (HV : Forall2 K (map fst (r_rhs (grule g r))) (rev (map e_minor st1))).
    { rewrite <- HX. apply forall2_rev. clear -Ht1. induction Ht1; simpl; constructor; auto. }
    destruct (hk_red _ _ _ K T HK r _ (ps_extra pp) Hr HV) as (x' & ve & Eh & Hv).
    destruct HC as [(Hst & -> & -> & Hy)|(Hst & q & Hq & Hy)]; rewrite Hy, Eh in H.
    { destruct ve as [v|e]; [|discriminate]. destruct (h_accept h v) as [root|]; discriminate. }
    destruct ve as [v|e]; [|discriminate]. specialize (Hv v eq_refl).
    unfold yy_shift in H. cbn [after_reduce set_stack set_extra log ps_stack] in H.
    destruct (negb (t_limit t =? 0) && (t_limit t <=? _)) eqn:ELim.
    { destruct (h_overflow _ _ _ _); discriminate. }
    cbn [rbind] in H.
    assert (HLim : t_limit t <> 0 -> List.length (st2 ++ [bot]) < t_limit t).
    { intros HL. apply andb_false_iff in ELim as [E0|E0]; [apply negb_false_iff, Nat.eqb_eq in E0; contradiction|].
      apply Nat.leb_gt in E0. exact E0. }
    destruct (aspine_split g p _ _ _ Hc) as (c1 & c2 & -> & Lc & Hc2).
    assert (Et2 : top unit c2 = s0).
    { eapply (path_fun g p A); [eapply aspine_path; eauto|eapply spine_path; eauto]. }
    assert (Et1 : top unit (c1 ++ c2) = s).
    { eapply (path_fun g p A); [eapply aspine_path; eauto|eapply spine_path; eauto]. }
    match type of H with parse_token_2 _ _ _ ?p1 _ _ = _ => set (pp1 := p1) in * end.
    destruct (IH pp1 (mkEntry (num q) (r_lhs (grule g r)) v :: st2) (r_lhs (grule g r) :: Xs2) q bot
                ((q, TNode r (rev (map snd c1))) :: c2)) as (n & c' & Hch & Hle); auto.
    + econstructor; eauto.
    + constructor; auto.
    + constructor; auto. now rewrite Et2.
    + assert (Hlen : List.length c2 = List.length st2) by (pose proof (spine_len _ _ _ Hs); apply aspine_len in Hc2; lia).
      exists (max n (S (List.length c2))), c'. split; [|intros HL; specialize (Hle HL); specialize (HLim HL); rewrite app_length in HLim; cbn [List.length] in HLim; lia].
      apply run_S with (b := b) (c' := (q, TNode r (rev (map snd c1))) :: c2).
      * constructor; auto.
        -- rewrite Et1. constructor; auto. pose proof Hl as Hl'. apply (au_look g p A) in Hl'. destruct (spread_lr1 g p A _ _ _ Hl') as (gamma & _ & L1).
           eapply lr1_lt; eauto. apply (pp_flat _ _ _ _ _ P).
        -- rewrite Lc. apply (f_equal (@List.length nat)) in HX. rewrite rev_length, map_length in HX. exact HX.
        -- now rewrite Et2.
      * cbn [List.length]. lia.
      * cbn [List.length]. lia.
      * eapply run_wider; [|exact Hch]. lia.
  - replace (ns + nr <? ns) with false in H by (symmetry; apply Nat.ltb_ge; lia). rewrite Nat.ltb_irrefl, Nat.eqb_refl in H.
    assert (Hot : on_track pp) by (exists st, Xs, s, bot; auto).
    pose proof (syntax_error_safe g p p3 p4 t P h K T HK (num s) a m pp Hn Hot) as HS. rewrite H in HS. contradiction.
Qed.

(** No symbol becomes itself by rules whose rest is empty; and there is a limit or no symbol
    comes back behind symbols that are empty. *)
Hypotheses (NC : forall s Z, ~ ups g p s Z Z) (HL : t_limit t <> 0 \/ forall Z, ~ gpath g true Z Z).

Theorem parse_token_ends (pp : parser M X R) a m : safe pp -> tok_ok g T a m ->
  exists n, parse_token n t h pp a m <> RFuel.
Proof.
  intros [Hn (st & Xs & s & bot & Hsp & Est & Hb & Ht)] Htok. destruct (spine_abs g p p3 p4 t P _ _ _ Hsp) as [c Hc].
  assert (HB : exists N, forall n i c', run g p 0 n i c c' -> (t_limit t <> 0 -> n <= t_limit t) -> i <= N).
  { destruct HL as [HL0|NH].
    - destruct (limited g W p A NC (t_limit t) (List.length c)) as (N & HN). exists N. intros n i c' Hr Hle. eapply HN; eauto. eapply run_wider; [|exact Hr]. auto.
    - destruct (unlimited g W p A NC NH (List.length c)) as (N & HN). exists N. intros n i c' Hr _. eapply HN; eauto. }
  destruct HB as (N & HN).
  exists (S (S N)). unfold parse_token. rewrite Hn. destruct (parse_token_2 (S (S N)) t h pp a m) eqn:EF; try discriminate.
  destruct (out_of_fuel_run a m Htok _ _ _ _ _ _ _ Hn Hsp Est Hb Ht Hc EF) as (n & c' & Hr & Hle).
  specialize (HN _ _ _ Hr Hle). lia.
Qed.

Theorem end_ends (pp : parser M X R) : safe pp -> exists n, end_of_input n t h pp <> RFuel.
Proof.
  intros Hs. destruct (parse_token_ends pp 0 (h_unit h) Hs (or_introl eq_refl)) as [n Hn]. exists n. unfold end_of_input.
  destruct (parse_token n t h pp 0 (h_unit h)) as [[] p1|e p1| |]; cbn [rbind]; try discriminate; [|contradiction].
  destruct (ps_status p1); discriminate.
Qed.

Theorem parse_all_ends ts : forall pp : parser M X R, safe pp -> input_ok g T ts -> exists n, parse_all n t h pp ts <> RFuel.
Proof.
  induction ts as [|[a m] ts IH]; intros pp Hs Hts; [exists 0; discriminate|].
  pose proof (Hts a m (or_introl eq_refl)) as Ha. destruct (parse_token_ends pp a m Hs (or_intror Ha)) as [n1 H1].
  pose proof (parse_token_safe g p p3 p4 t P h K T HK n1 pp a m Hs (or_intror Ha)) as HT.
  destruct (parse_token n1 t h pp a m) as [[] p1|e p1| |] eqn:E1; try contradiction.
  - destruct HT as [[Hz _]|[_ HT]]; [lia|]. destruct (IH p1 HT) as [n2 H2]; [intros a' m' Hin; apply Hts; now right|].
    exists (max n1 n2). cbn [parse_all]. rewrite (parse_token_mono t h n1 (max n1 n2)); [|lia|congruence]. rewrite E1. cbn [rbind].
    rewrite (parse_all_mono t h n2 (max n1 n2)); auto. lia.
  - exists n1. cbn [parse_all]. rewrite E1. discriminate.
Qed.

Theorem run_ends x ts : input_ok g T ts -> exists n, forall n', n <= n' -> Runtime.run n' t h x ts = Runtime.run n t h x ts /\ Runtime.run n t h x ts <> RFuel.
Proof.
  intros Hts. pose proof (new_safe g p p3 p4 t P h K x) as Hs0. destruct (parse_all_ends ts (new_parser h x) Hs0 Hts) as [n1 H1].
  pose proof (parse_all_safe g p p3 p4 t P h K T HK n1 ts _ Hs0 Hts) as HT.
  assert (HE : exists n, Runtime.run n t h x ts <> RFuel).
  { unfold Runtime.run. destruct (parse_all n1 t h (new_parser h x) ts) as [[] p1|e p1| |] eqn:E1; try contradiction.
    - destruct (end_ends p1 HT) as [n2 H2]. exists (max n1 n2). rewrite (parse_all_mono t h n1 (max n1 n2)); [|lia|congruence].
      rewrite E1. cbn [rbind]. rewrite (end_of_input_mono t h n2 (max n1 n2)); auto. lia.
    - exists n1. rewrite E1. discriminate. }
  destruct HE as [n Hn]. exists n. intros n' Hle. split; auto. now apply run_mono.
Qed.
End Term.
