(** Every call of [parse] and [end_of_input] returns (C06). *)
From Verif Require Import Base Syntax BaseFacts FrontEnd First States Actions Tables Runtime
  PackFacts Spec WfGrammar FirstFacts ClosureFacts AutoFacts LalrFacts ActFacts CompFacts GroupFacts
  TabFacts LookFacts PipeFacts RunFacts SoundFacts SafeFacts AbsFacts HaltFacts.

(** ** More fuel changes nothing once the loop has ended *)
Section Fuel.
Context {M X E R : Type} (t : tables) (h : hooks M X E R).

Lemma parse_token_2_S n (pp : parser M X R) a m : parse_token_2 (S n) t h pp a m =
  match ps_status pp with
  | Normal =>
      match ps_stack pp with
      | [] => RPanic
      | top :: _ =>
          match find_shift_action t (e_state top) a with
          | LPanic => RPanic
          | LLoop => RFuel
          | LAct ac =>
              if ac <? t_nstate t then
                if a =? 0 then RPanic
                else rbind (yy_shift t h pp ac a m) (fun _ p1 =>
                       ROk tt (log (set_count p1 (ps_count p1 - 1)) (EvShift a)))
              else if ac <? t_nstate t + t_nrule t then
                rbind (yy_reduce t h pp (ac - t_nstate t)) (fun _ p1 => parse_token_2 n t h p1 a m)
              else if ac =? t_nstate t + t_nrule t
              then syntax_error t h pp (e_state top) a m
              else RPanic
          end
      end
  | _ => ROk tt pp
  end.
Proof. reflexivity. Qed.

Lemma parse_token_2_mono n : forall n' (pp : parser M X R) a m, n <= n' -> parse_token_2 n t h pp a m <> RFuel ->
  parse_token_2 n' t h pp a m = parse_token_2 n t h pp a m.
Proof.
  induction n as [|n IH]; intros [|n'] pp a m Hle H; try lia; auto; [now contradiction H|]. cbn [parse_token_2] in *.
  destruct (ps_status pp); auto. destruct (ps_stack pp) as [|top rest]; auto.
  destruct (find_shift_action t (e_state top) a) as [ac| |]; auto. destruct (ac <? t_nstate t); auto.
  destruct (ac <? t_nstate t + t_nrule t); auto. destruct (yy_reduce t h pp (ac - t_nstate t)) as [[] p1|e p1| |]; cbn [rbind] in *; auto.
  apply IH; auto. lia.
Qed.

Lemma parse_token_mono n n' (pp : parser M X R) a m : n <= n' -> parse_token n t h pp a m <> RFuel ->
  parse_token n' t h pp a m = parse_token n t h pp a m.
Proof.
  unfold parse_token. intros Hle H. destruct (ps_status pp); auto.
  rewrite (parse_token_2_mono n n'); auto. intros Hf. now rewrite Hf in H.
Qed.

Lemma parse_all_mono n n' ts : n <= n' -> forall pp : parser M X R, parse_all n t h pp ts <> RFuel ->
  parse_all n' t h pp ts = parse_all n t h pp ts.
Proof.
  intros Hle. induction ts as [|[a m] ts IH]; intros pp H; cbn [parse_all] in *; auto.
  rewrite (parse_token_mono n n'); auto.
  - destruct (parse_token n t h pp a m) as [[] p1|e p1| |]; cbn [rbind] in *; auto.
  - intros Hf. now rewrite Hf in H.
Qed.

Lemma end_of_input_mono n n' (pp : parser M X R) : n <= n' -> end_of_input n t h pp <> RFuel ->
  end_of_input n' t h pp = end_of_input n t h pp.
Proof.
  unfold end_of_input. intros Hle H. rewrite (parse_token_mono n n'); auto. intros Hf. now rewrite Hf in H.
Qed.

Lemma run_mono n n' x ts : n <= n' -> run n t h x ts <> RFuel -> run n' t h x ts = run n t h x ts.
Proof.
  unfold run. intros Hle H. rewrite (parse_all_mono n n'); auto.
  - destruct (parse_all n t h (new_parser h x) ts) as [[] p1|e p1| |]; cbn [rbind] in *; auto. now apply end_of_input_mono.
  - intros Hf. now rewrite Hf in H.
Qed.
End Fuel.

Section Term.
Context (g : grammar) (p p3 p4 : pst) (t : tables) (P : Pipe g p p3 p4 t).
Context {M X E R : Type} (h : hooks M X E R).
Let W := pp_wf _ _ _ _ _ P.
Let A := pp_aut _ _ _ _ _ P.
Notation ns := (List.length (p_states p)).
Notation nr := (List.length (g_rules g)).
Notation num := (state_num g p4).
Notation spine := (spine g p p4 (M := M)).
Notation aspine := (aspine g p unit).
Context (K T : nat -> M -> Prop) (HK : hooks_ok g t h K T).
Notation safe := (safe g p p4 (M := M) (X := X) (R := R) K).
Notation on_track := (on_track g p p4 (M := M) (X := X) (R := R) K).

Lemma spine_abs st Xs s : spine st Xs s -> exists c, aspine c Xs.
Proof.
  induction 1 as [|st Xs s e Y q H [c IH] Hq He]; [exists []; constructor|].
  exists ((q, TTok 0 tt) :: c). constructor; auto.
  replace (top unit c) with s; auto. eapply (path_fun g p A); [eapply spine_path; eauto|eapply aspine_path; eauto].
Qed.

Lemma out_of_fuel_chain a m : tok_ok g T a m -> forall i (pp : parser M X R) st Xs s bot c, ps_status pp = Normal ->
  spine st Xs s -> ps_stack pp = st ++ [bot] -> e_state bot = num 0 -> typed_stack K st Xs -> aspine c Xs ->
  parse_token_2 (S i) t h pp a m = RFuel -> exists c', chain g p i c c'.
Proof.
  intros Htok. induction i as [|i IH]; intros pp st Xs s bot c Hn Hsp Est Hb Ht Hc H; [exists c; constructor|].
  rewrite parse_token_2_S, Hn in H.
  destruct (spine_top g p p4 st Xs s bot Hsp Hb) as (tp & rest & Et & Etop). rewrite Est, Et, Etop in H.
  destruct (shift_answer g p p3 p4 t P s a (spine_range g p p3 p4 t P _ _ _ Hsp) (tok_ok_tokenish g p p3 p4 t P T _ _ Htok)) as (ac & Ea0 & HA).
  rewrite Ea0 in H. clear Ea0.
  rewrite (t_ns g p p3 p4 t P), (t_nr g p p3 p4 t P) in H. inversion HA as [Y q Hq Hm Hz Ea|r b Hl Hz Ea|Ea]; subst ac.
  - pose proof (num_lt g p p3 p4 t P q (proj1 (au_edge g p A _ _ _ Hq))) as Hlt. apply Nat.ltb_lt in Hlt. rewrite Hlt in H.
    destruct (a =? 0); [discriminate|].
    destruct (yy_shift_cases t h pp (num q) a m) as [E1|(e & pp' & E1)]; rewrite E1 in H; discriminate.
  - replace (ns + r <? ns) with false in H by (symmetry; apply Nat.ltb_ge; lia).
    pose proof (look_item p _ _ _ Hl) as Hi. pose proof (item_rule g p p3 p4 t P _ _ _ Hi) as Hr.
    replace (ns + r <? ns + nr) with true in H by (symmetry; apply Nat.ltb_lt; lia). replace (ns + r - ns) with r in H by lia.
    destruct (yy_reduce_eq g p p3 p4 t P h pp r st Xs s bot Hsp Est Hb Hi) as (st1 & st2 & Xs1 & Xs2 & s0 & -> & -> & L & HX & Hs & HC).
    destruct (forall2_app_inv _ _ _ _ _ (eq_sym L) Ht) as [Ht1 Ht2].
    assert (HV : Forall2 K (map fst (r_rhs (grule g r))) (rev (map e_minor st1))).
    { rewrite <- HX. apply forall2_rev. clear -Ht1. induction Ht1; simpl; constructor; auto. }
    destruct (hk_red _ _ _ K T HK r _ (ps_extra pp) Hr HV) as (x' & ve & Eh & Hv).
    destruct HC as [(Hst & -> & -> & Hy)|(Hst & q & Hq & Hy)]; rewrite Hy, Eh in H.
    { destruct ve as [v|e]; [|discriminate]. destruct (h_accept h v) as [root|]; discriminate. }
    destruct ve as [v|e]; [|discriminate]. specialize (Hv v eq_refl).
    destruct (yy_shift_cases t h (after_reduce pp r x' (st2 ++ [bot])) (num q) (r_lhs (grule g r)) v) as [E1|(e & pp' & E1)];
      rewrite E1 in H; [|discriminate]. cbn [rbind] in H.
    destruct (aspine_split g p _ _ _ Hc) as (c1 & c2 & -> & Lc & Hc2).
    assert (Et2 : top unit c2 = s0).
    { eapply (path_fun g p A); [eapply aspine_path; eauto|eapply spine_path; eauto]. }
    assert (Et1 : top unit (c1 ++ c2) = s).
    { eapply (path_fun g p A); [eapply aspine_path; eauto|eapply spine_path; eauto]. }
    match type of H with parse_token_2 _ _ _ ?p1 _ _ = _ => set (pp1 := p1) in * end.
    destruct (IH pp1 (mkEntry (num q) (r_lhs (grule g r)) v :: st2) (r_lhs (grule g r) :: Xs2) q bot
                ((q, TNode r (rev (map snd c1))) :: c2)) as [c' Hch]; auto.
    + econstructor; eauto.
    + constructor; auto.
    + constructor; auto. now rewrite Et2.
    + exists c'. econstructor; [|exact Hch]. constructor; auto.
      * now rewrite Et1.
      * rewrite Lc. apply (f_equal (@List.length nat)) in HX. rewrite rev_length, map_length in HX. exact HX.
      * now rewrite Et2.
  - replace (ns + nr <? ns) with false in H by (symmetry; apply Nat.ltb_ge; lia). rewrite Nat.ltb_irrefl, Nat.eqb_refl in H.
    assert (Hot : on_track pp) by (exists st, Xs, s, bot; auto).
    pose proof (syntax_error_safe g p p3 p4 t P h K T HK (num s) a m pp Hn Hot) as HS. rewrite H in HS. contradiction.
Qed.

Hypotheses (U : single g p) (HP : all_derive g) (HS : rules_of g (g_start g) <> []).

Theorem parse_token_ends (pp : parser M X R) a m : safe pp -> tok_ok g T a m ->
  exists n, parse_token n t h pp a m <> RFuel.
Proof.
  intros [Hn (st & Xs & s & bot & Hsp & Est & Hb & Ht)] Htok. destruct (spine_abs _ _ _ Hsp) as [c Hc].
  destruct (reductions_bounded g W p A (fun i => parse_token_2 (S i) t h pp a m = RFuel) c Xs U HP HS Hc) as [N HN].
  - intros i. destruct (parse_token_2 (S i) t h pp a m); auto; right; discriminate.
  - intros i Hi. eapply out_of_fuel_chain; eauto.
  - exists (S N). unfold parse_token. rewrite Hn. destruct (parse_token_2 (S N) t h pp a m); try discriminate. contradiction.
Qed.

Theorem end_ends (pp : parser M X R) : safe pp -> exists n, end_of_input n t h pp <> RFuel.
Proof.
  intros Hs. destruct (parse_token_ends pp 0 (h_unit h) Hs (or_introl eq_refl)) as [n Hn]. exists n. unfold end_of_input.
  destruct (parse_token n t h pp 0 (h_unit h)) as [[] p1|e p1| |]; cbn [rbind]; try discriminate; [|contradiction].
  destruct (ps_status p1); discriminate.
Qed.

Theorem parse_all_ends ts : forall pp : parser M X R, safe pp -> input_ok g T ts -> exists n, parse_all n t h pp ts <> RFuel.
Proof.
  induction ts as [|[a m] ts IH]; intros pp Hs Hts; [exists 0; discriminate|].
  pose proof (Hts a m (or_introl eq_refl)) as Ha. destruct (parse_token_ends pp a m Hs (or_intror Ha)) as [n1 H1].
  pose proof (parse_token_safe g p p3 p4 t P h K T HK n1 pp a m Hs (or_intror Ha)) as HT.
  destruct (parse_token n1 t h pp a m) as [[] p1|e p1| |] eqn:E1; try contradiction.
  - destruct HT as [[Hz _]|[_ HT]]; [lia|]. destruct (IH p1 HT) as [n2 H2]; [intros a' m' Hin; apply Hts; now right|].
    exists (max n1 n2). cbn [parse_all]. rewrite (parse_token_mono t h n1 (max n1 n2)); [|lia|congruence]. rewrite E1. cbn [rbind].
    rewrite (parse_all_mono t h n2 (max n1 n2)); auto. lia.
  - exists n1. cbn [parse_all]. rewrite E1. discriminate.
Qed.

(** C06 *)
Theorem run_ends x ts : input_ok g T ts -> exists n, forall n', n <= n' -> run n' t h x ts = run n t h x ts /\ run n t h x ts <> RFuel.
Proof.
  intros Hts. pose proof (new_safe g p p3 p4 t P h K x) as Hs0. destruct (parse_all_ends ts (new_parser h x) Hs0 Hts) as [n1 H1].
  pose proof (parse_all_safe g p p3 p4 t P h K T HK n1 ts _ Hs0 Hts) as HT.
  assert (HE : exists n, run n t h x ts <> RFuel).
  { unfold run. destruct (parse_all n1 t h (new_parser h x) ts) as [[] p1|e p1| |] eqn:E1; try contradiction.
    - destruct (end_ends p1 HT) as [n2 H2]. exists (max n1 n2). rewrite (parse_all_mono t h n1 (max n1 n2)); [|lia|congruence].
      rewrite E1. cbn [rbind]. rewrite (end_of_input_mono t h n2 (max n1 n2)); auto. lia.
    - exists n1. rewrite E1. discriminate. }
  destruct HE as [n Hn]. exists n. intros n' Hle. split; auto. now apply run_mono.
Qed.
End Term.
