(** The generated parser never panics on its own, also through error recovery (C07),
    [parse] leaves the parser usable unless it returns Err (C22), and [end_of_input]
    accepts or fails (C23). *)
From Verif Require Import Base Syntax BaseFacts FrontEnd First States Actions Tables Runtime
  PackFacts Spec WfGrammar FirstFacts ClosureFacts AutoFacts LalrFacts ActFacts CompFacts GroupFacts
  TabFacts LookFacts PipeFacts RunFacts SoundFacts.

Section Safe.
Context (g : grammar) (p p3 p4 : pst) (t : tables) (P : Pipe g p p3 p4 t).
Context {M X E R : Type} (h : hooks M X E R).
Let W := pp_wf _ _ _ _ _ P.
Let A := pp_aut _ _ _ _ _ P.
Notation ns := (List.length (p_states p)).
Notation nr := (List.length (g_rules g)).
Notation num := (state_num g p4).
Notation spine := (spine g p p4 (M := M)).

(** [K Y m]: the value [m] may be on the stack for symbol [Y].  [T a m]: the token [a]
    may come with the value [m]. *)
Record hooks_ok (K T : nat -> M -> Prop) : Prop := {
  hk_tok : forall a m Y, T a m -> tok_match g a Y -> K Y m;
  hk_red : forall r vals x, r < nr -> Forall2 K (map fst (r_rhs (grule g r))) vals ->
    exists x' ve, h_reduce h r vals x = Some (x', ve) /\ forall v, ve = inl v -> K (r_lhs (grule g r)) v;
  hk_acc : forall v, K (g_start g) v -> h_accept h v <> None;
  hk_syn : t_err t <> 0 -> forall a m exp x x' v, h_syntax h a m exp x = (x', inl v) -> K (t_err t) v }.

Context (K T : nat -> M -> Prop) (HK : hooks_ok K T).

Definition typed_stack (st : list (entry M)) (Xs : list nat) : Prop := Forall2 (fun Y e => K Y (e_minor e)) Xs st.

Definition on_track (pp : parser M X R) : Prop :=
  exists st Xs s bot, spine st Xs s /\ ps_stack pp = st ++ [bot] /\ e_state bot = num 0 /\ typed_stack st Xs.
Definition safe (pp : parser M X R) : Prop := ps_status pp = Normal /\ on_track pp.

Lemma new_safe x : safe (new_parser h x).
Proof.
  split; [reflexivity|]. exists [], [], 0, (mkEntry 0 0 (h_unit h)). splits; auto.
  - constructor.
  - symmetry. apply (num_0 g p p3 p4 t P).
  - constructor.
Qed.

Lemma yy_shift_cases (pp : parser M X R) q a m :
  yy_shift t h pp q a m = ROk tt (set_stack pp (mkEntry q a m :: ps_stack pp)) \/ exists e pp', yy_shift t h pp q a m = RErr e pp'.
Proof. unfold yy_shift. destruct (_ && _); auto. destruct (h_overflow h a m (ps_extra pp)). eauto. Qed.

Lemma push_track (pp : parser M X R) st Xs s bot Y q a m : spine st Xs s -> ps_stack pp = st ++ [bot] -> e_state bot = num 0 ->
  typed_stack st Xs -> edge g p s Y q -> K Y m -> on_track (set_stack pp (mkEntry (num q) a m :: ps_stack pp)).
Proof.
  intros Hsp Est Hb Ht Hq Hm. exists (mkEntry (num q) a m :: st), (Y :: Xs), q, bot. splits; auto.
  - econstructor; eauto.
  - cbn. now rewrite Est.
  - constructor; auto.
Qed.

Lemma forall2_app_inv {S1 T1} (Q : S1 -> T1 -> Prop) l1 l2 m1 m2 : List.length l1 = List.length m1 ->
  Forall2 Q (l1 ++ l2) (m1 ++ m2) -> Forall2 Q l1 m1 /\ Forall2 Q l2 m2.
Proof.
  revert m1. induction l1 as [|a l1 IH]; intros [|b m1] L H; try discriminate; simpl in *; auto.
  inversion H; subst. destruct (IH m1) as [H1 H2]; auto.
Qed.
Lemma forall2_rev {S1 T1} (Q : S1 -> T1 -> Prop) l m : Forall2 Q l m -> Forall2 Q (rev l) (rev m).
Proof. induction 1; simpl; [constructor|]. apply Forall2_app; auto. Qed.

Lemma reduce_safe (pp : parser M X R) st Xs s bot r :
  spine st Xs s -> ps_stack pp = st ++ [bot] -> e_state bot = num 0 -> typed_stack st Xs -> item p s (r, rlen g r) ->
  match yy_reduce t h pp r with
  | ROk _ pp' => (r_lhs (grule g r) = g_start g /\ exists root l, ps_status pp' = Accepted root /\ ps_stack pp' = [] /\
                     ps_log pp' = EvAccept :: EvReduce r :: l) \/
                 (r_lhs (grule g r) <> g_start g /\ ps_status pp' = ps_status pp /\ on_track pp')
  | RErr _ _ => True
  | _ => False
  end.
Proof.
  intros Hsp Est Hb Ht Hi. pose proof (item_rule g p p3 p4 t P _ _ _ Hi) as Hr.
  destruct (yy_reduce_eq g p p3 p4 t P h pp r st Xs s bot Hsp Est Hb Hi) as (st1 & st2 & Xs1 & Xs2 & s0 & -> & -> & L & HX & Hs & HC).
  destruct (forall2_app_inv _ _ _ _ _ (eq_sym L) Ht) as [Ht1 Ht2].
  assert (HV : Forall2 K (map fst (r_rhs (grule g r))) (rev (map e_minor st1))).
  { rewrite <- HX. apply forall2_rev. clear -Ht1. induction Ht1; simpl; constructor; auto. }
  destruct (hk_red K T HK r _ (ps_extra pp) Hr HV) as (x' & ve & Eh & Hv).
  destruct HC as [(Hst & -> & -> & Hy)|(Hst & q & Hq & Hy)]; rewrite Hy, Eh; destruct ve as [v|e]; auto.
  - specialize (Hv v eq_refl). rewrite Hst in Hv. pose proof (hk_acc K T HK v Hv) as Ha. destruct (h_accept h v) as [root|]; [|contradiction].
    left. split; auto. do 2 eexists. cbn. splits; reflexivity.
  - specialize (Hv v eq_refl). destruct (yy_shift_cases (after_reduce pp r x' (st2 ++ [bot])) (num q) (r_lhs (grule g r)) v) as [->|(e & pp' & ->)]; auto.
    right. splits; auto. eapply push_track; eauto. reflexivity.
Qed.

(** ** Recovery *)
Lemma recover_safe : t_err t <> 0 -> forall n st0 a m (pp : parser M X R) st Xs s bot,
  List.length (ps_stack pp) < n ->
  spine st Xs s -> ps_stack pp = st ++ [bot] -> e_state bot = num 0 -> typed_stack st Xs ->
  match recover t h n st0 a m pp with
  | ROk _ pp' => ps_status pp' = ps_status pp /\ (ps_stack pp' = [] \/ on_track pp')
  | RErr _ _ => True
  | _ => False
  end.
Proof.
  intros Hne. induction n as [|n IH]; intros st0 a m pp st Xs s bot Hlen Hsp Est Hb Ht; [lia|]. cbn [recover].
  destruct (spine_top g p p4 st Xs s bot Hsp Hb) as (top & rest & Et & Etop). rewrite Est, Et.
  destruct (e_major top =? t_err t). { split; auto. right. exists st, Xs, s, bot. auto. }
  pose proof (spine_range g p p3 p4 t P _ _ _ Hsp) as Hs. rewrite Etop.
  destruct (error_lookup g p p3 p4 t P s Hs Hne) as (ac & -> & Hac). rewrite (t_ns g p p3 p4 t P).
  destruct (Nat.ltb_spec ac ns) as [Hlt|Hge].
  - destruct (Hac Hlt) as (q & -> & Hq). destruct (h_syntax h a m (expected_tokens t st0) (ps_extra pp)) as [x [v|e]] eqn:Eh; auto.
    set (p1 := log (set_extra pp x) (EvSyntaxError a)).
    destruct (yy_shift_cases p1 (num q) (t_err t) v) as [->|(e & pp' & ->)]; cbn [rbind]; auto. split; auto. right.
    apply (push_track (log p1 EvError) st Xs s bot (t_err t) q); auto. eapply (hk_syn K T HK); eauto.
  - inversion Hsp as [|st' Xs' s' e Y q Hsp' Hq He]; subst.
    + simpl in Et. injection Et as <- <-. destruct n as [|n]; [rewrite Est in Hlen; simpl in Hlen; lia|]. cbn. auto.
    + simpl in Et. injection Et as <- <-. inversion Ht; subst.
      apply (IH st0 a m (log (set_stack pp (st' ++ [bot])) EvPop) st' Xs' s' bot); auto.
      cbn. rewrite Est in Hlen. simpl in Hlen. lia.
Qed.

Lemma failed_err {B} (pp : parser M X R) : exists e pp', @yy_parse_failed M X E R B h pp = RErr e pp' /\ exists l, ps_log pp' = EvParseFail :: l.
Proof. unfold yy_parse_failed. destruct (h_fail h (ps_extra pp)). do 2 eexists. split; eauto. cbn. eauto. Qed.

Lemma syntax_error_safe st0 a m (pp : parser M X R) : ps_status pp = Normal -> on_track pp ->
  match syntax_error t h pp st0 a m with
  | ROk _ pp' => a <> 0 /\ safe pp'
  | RErr _ _ => True
  | _ => False
  end.
Proof.
  intros Hn (st & Xs & s & bot & Hsp & Est & Hb & Ht). unfold syntax_error. destruct (Nat.eqb_spec a 0) as [->|Ha].
  { destruct (@failed_err unit pp) as (e & pp' & -> & _). exact I. }
  destruct (Nat.eqb_spec (t_err t) 0) as [He|He]; cbn [negb].
  - destruct (ps_count pp =? 0).
    + destruct (h_syntax _ _ _ _ _) as [x [v|e]]; auto. split; auto. split; [exact Hn|]. exists st, Xs, s, bot. auto.
    + split; auto. split; [exact Hn|]. exists st, Xs, s, bot. auto.
  - pose proof (recover_safe He (S (List.length (ps_stack pp))) st0 a m pp st Xs s bot (Nat.lt_succ_diag_r _) Hsp Est Hb Ht) as HR.
    destruct (recover t h (S (List.length (ps_stack pp))) st0 a m pp) as [[] p1|e p1| |]; cbn [rbind]; auto.
    destruct HR as [Hs1 HR]. destruct (ps_stack p1) eqn:E1.
    + destruct (@failed_err unit p1) as (e & pp' & -> & _). exact I.
    + split; auto. split; [cbn; congruence|]. destruct HR as [HR|(st1 & Xs1 & s1 & bot1 & H1 & H2 & H3 & H4)]; [discriminate|].
      exists st1, Xs1, s1, bot1. auto.
Qed.

(** ** One call *)
Definition tok_ok (a : nat) (m : M) : Prop := a = 0 \/ (0 < a < g_nterm g /\ T a m).

Lemma tok_ok_tokenish a m : tok_ok a m -> tokenish g a.
Proof. intros [->|[H _]]; left; [apply (wg_nterm_pos g W)|lia]. Qed.

Definition accepted (pp : parser M X R) : Prop :=
  exists root r l, ps_status pp = Accepted root /\ ps_stack pp = [] /\
    ps_log pp = EvAccept :: EvReduce r :: l /\ r_lhs (grule g r) = g_start g.

Lemma parse_token_2_safe fuel : forall (pp : parser M X R) a m, safe pp -> tok_ok a m ->
  match parse_token_2 fuel t h pp a m with
  | ROk _ pp' => (a = 0 /\ accepted pp') \/ (a <> 0 /\ safe pp')
  | RPanic => False
  | _ => True
  end.
Proof.
  induction fuel as [|fuel IH]; intros pp a m [Hn Hot] Htok; cbn [parse_token_2]; auto. rewrite Hn.
  pose proof Hot as (st & Xs & s & bot & Hsp & Est & Hb & Ht).
  destruct (spine_top g p p4 st Xs s bot Hsp Hb) as (top & rest & Et & Etop). rewrite Est, Et, Etop.
  destruct (shift_answer g p p3 p4 t P s a (spine_range g p p3 p4 t P _ _ _ Hsp) (tok_ok_tokenish _ _ Htok)) as (ac & -> & HA).
  rewrite (t_ns g p p3 p4 t P), (t_nr g p p3 p4 t P). inversion HA as [Y q Hq Hm Hz Ea|r b Hl Hz Ea|Ea]; subst ac.
  - pose proof (num_lt g p p3 p4 t P q (proj1 (au_edge g p A _ _ _ Hq))) as Hlt. apply Nat.ltb_lt in Hlt. rewrite Hlt.
    destruct (Nat.eqb_spec a 0) as [|_]; [contradiction|].
    destruct (yy_shift_cases pp (num q) a m) as [->|(e & pp' & ->)]; cbn [rbind]; auto. right. split; auto. split; [exact Hn|].
    destruct Htok as [|[_ HT]]; [contradiction|].
    destruct (push_track pp st Xs s bot Y q a m Hsp Est Hb Ht Hq (hk_tok K T HK _ _ _ HT Hm)) as (st1 & Xs1 & s1 & bot1 & H1).
    exists st1, Xs1, s1, bot1. exact H1.
  - replace (ns + r <? ns) with false by (symmetry; apply Nat.ltb_ge; lia).
    pose proof (item_rule g p p3 p4 t P _ _ _ (look_item p _ _ _ Hl)) as Hr.
    replace (ns + r <? ns + nr) with true by (symmetry; apply Nat.ltb_lt; lia). replace (ns + r - ns) with r by lia.
    pose proof (reduce_safe pp st Xs s bot r Hsp Est Hb Ht (look_item p _ _ _ Hl)) as HR.
    destruct (yy_reduce t h pp r) as [[] p1|e p1| |]; cbn [rbind]; auto.
    destruct HR as [(Hst & root & l & Hs1 & Hs2 & Hs3)|(Hst & Hs1 & HG)].
    + destruct fuel as [|fuel]; cbn [parse_token_2]; auto. rewrite Hs1. left. split; auto. exists root, r, l. auto.
    + apply IH; auto. split; auto. now rewrite Hs1.
  - replace (ns + nr <? ns) with false by (symmetry; apply Nat.ltb_ge; lia). rewrite Nat.ltb_irrefl, Nat.eqb_refl.
    pose proof (syntax_error_safe (num s) a m pp Hn Hot) as HS. destruct (syntax_error t h pp (num s) a m); auto.
Qed.

Theorem parse_token_safe fuel (pp : parser M X R) a m : safe pp -> tok_ok a m ->
  match parse_token fuel t h pp a m with
  | ROk _ pp' => (a = 0 /\ accepted pp') \/ (a <> 0 /\ safe pp')
  | RErr _ pp' => ps_status pp' = Failed
  | RPanic => False
  | RFuel => True
  end.
Proof.
  intros Hs Ht. unfold parse_token. pose proof (parse_token_2_safe fuel pp a m Hs Ht) as H. destruct Hs as [-> _].
  destruct (parse_token_2 fuel t h pp a m); auto.
Qed.

Definition input_ok (ts : list (nat * M)) : Prop := forall a m, In (a, m) ts -> 0 < a < g_nterm g /\ T a m.

Theorem parse_all_safe fuel ts : forall pp : parser M X R, safe pp -> input_ok ts ->
  match parse_all fuel t h pp ts with
  | ROk _ pp' => safe pp'
  | RErr _ pp' => ps_status pp' = Failed
  | RPanic => False
  | RFuel => True
  end.
Proof.
  induction ts as [|[a m] ts IH]; intros pp Hs Hts; cbn [parse_all]; auto.
  pose proof (Hts a m (or_introl eq_refl)) as Ha. pose proof (parse_token_safe fuel pp a m Hs (or_intror Ha)) as H.
  destruct (parse_token fuel t h pp a m); cbn [rbind]; auto. destruct H as [[Hz _]|[_ H]]; [lia|].
  apply IH; auto. intros a' m' Hin. apply Hts. now right.
Qed.

Theorem end_safe fuel (pp : parser M X R) : safe pp ->
  match end_of_input fuel t h pp with
  | ROk (r, x) pp' => accepted pp' /\ ps_status pp' = Accepted r /\ x = ps_extra pp'
  | RErr _ pp' => ps_status pp' = Failed
  | RPanic => False
  | RFuel => True
  end.
Proof.
  intros Hs. unfold end_of_input. pose proof (parse_token_safe fuel pp 0 (h_unit h) Hs (or_introl eq_refl)) as H.
  destruct (parse_token fuel t h pp 0 (h_unit h)) as [[] p1|e p1| |]; cbn [rbind]; auto. destruct H as [[_ HA]|[Hz _]]; [|contradiction].
  pose proof HA as (root & r & l & Hs1 & _). rewrite Hs1. auto.
Qed.

(** C07 *)
Theorem run_safe fuel x ts : input_ok ts -> run fuel t h x ts <> RPanic.
Proof.
  intros Hts. unfold run. pose proof (parse_all_safe fuel ts (new_parser h x) (new_safe x) Hts) as H.
  destruct (parse_all fuel t h (new_parser h x) ts) as [[] p1|e p1| |]; cbn [rbind]; try discriminate; [|contradiction].
  pose proof (end_safe fuel p1 H) as HE. destruct (end_of_input fuel t h p1) as [[] p2|e p2| |]; try discriminate. contradiction.
Qed.
End Safe.
