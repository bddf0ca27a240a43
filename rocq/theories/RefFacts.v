(** The generated parser against the plain LR parser that reads the resolved action lists
    directly, without default reductions, renumbering or packing (C35). *)
From Verif Require Import Base Syntax BaseFacts FrontEnd First States Actions Tables Runtime
  PackFacts Spec WfGrammar FirstFacts ClosureFacts AutoFacts LalrFacts ActFacts CompFacts GroupFacts
  TabFacts LookFacts PipeFacts RunFacts SoundFacts AbsFacts HaltFacts TermFacts CompleteFacts.

(** ** The plain LR parser *)
Section Ref.
Context (g : grammar) (q3 : pst).

(** The action list [l] says something about [b]. *)
Definition entry_at (l : list action) (b : nat) : Prop := exists d, In (mkAct b d) l /\ emits d = true.

(** What the list says about a token: its own action; an error where two tied; the action
    of its fallback if it has none; an error if nothing applies. *)
Inductive ract (l : list action) : nat -> detail -> Prop :=
| ra_own b d : In (mkAct b d) l -> live d -> ~ In (mkAct b Error) l -> ract l b d
| ra_err b : In (mkAct b Error) l -> ract l b Error
| ra_fb b c d : ~ entry_at l b -> sy_fb (gsym g b) = Some c -> ract l c d -> ract l b d
| ra_none b : ~ entry_at l b -> sy_fb (gsym g b) = None -> ract l b Error.

Context {M X E R : Type} (h : hooks M X E R).

(** [rparse stk x inp x' root]: from a stack of states and values, extra value [x] and
    remaining input [inp], the plain parser accepts with [root] and extra value [x']. *)
Inductive rparse : list (nat * M) -> X -> list (nat * M) -> X -> R -> Prop :=
| rp_shift s v stk x a m inp q x' root : ract (acts q3 s) a (Shift q) ->
    rparse ((q, m) :: (s, v) :: stk) x inp x' root ->
    rparse ((s, v) :: stk) x ((a, m) :: inp) x' root
| rp_reduce top stk x inp r ru pop s0 v0 rest x1 v q x' root :
    top :: stk = pop ++ (s0, v0) :: rest -> ract (acts q3 (fst top)) (la_of inp) (Reduce r) ->
    nth_error (g_rules g) r = Some ru -> List.length pop = List.length (r_rhs ru) ->
    h_reduce h r (rev (map snd pop)) x = Some (x1, inl v) ->
    In (mkAct (r_lhs ru) (Shift q)) (acts q3 s0) ->
    rparse ((q, v) :: (s0, v0) :: rest) x1 inp x' root ->
    rparse (top :: stk) x inp x' root
| rp_accept top stk x r ru pop s0 v0 rest x1 v root :
    top :: stk = pop ++ (s0, v0) :: rest -> ract (acts q3 (fst top)) 0 (Reduce r) ->
    nth_error (g_rules g) r = Some ru -> List.length pop = List.length (r_rhs ru) ->
    h_reduce h r (rev (map snd pop)) x = Some (x1, inl v) ->
    In (mkAct (r_lhs ru) Accept) (acts q3 s0) -> h_accept h v = Some root ->
    rparse (top :: stk) x [] x1 root.
End Ref.

(** ** Where an error marker comes from *)
Section Ties.
Context (g : grammar) (p p3 p4 : pst) (t : tables) (P : Pipe g p p3 p4 t).
Let W := pp_wf _ _ _ _ _ P.
Let A := pp_aut _ _ _ _ _ P.
Notation ns := (List.length (p_states p)).

Definition noSE (d : detail) : Prop := match d with Shift _ | Error => False | _ => True end.
Definition tied (la r : nat) : Prop := exists l c, sy_prec (gsym g la) = Some (l, ANone) /\ r_prec (grule g r) = Some (l, c).

Lemma resolve_noSE la x y x' y' e : resolve_conflict g la x y = (x', y', e) -> noSE y ->
  noSE y' /\ (noSE x -> noSE x') /\
  (x' = Error -> x = Error \/ exists r, y = Reduce r /\ tied la r).
Proof.
  intros H Hy. destruct x, y; cbn in Hy; try contradiction; cbn [resolve_conflict] in H;
    try (injection H as <- <- <-; cbn; splits; auto; try discriminate; fail).
  - destruct (sy_prec (gsym g la)) as [[l1 a1]|] eqn:E1; [|injection H as <- <- <-; cbn; splits; auto; discriminate].
    destruct (r_prec (grule g r)) as [[l2 a2]|] eqn:E2; [|injection H as <- <- <-; cbn; splits; auto; discriminate].
    destruct (precedence_cmp (l1, a1) (l2, a2)) eqn:Ec; injection H as <- <- <-; cbn; splits; auto; try discriminate.
    intros _. right. exists r. split; auto. unfold precedence_cmp in Ec. cbn [fst snd] in Ec.
    destruct (Nat.compare l1 l2) eqn:El; try discriminate. apply Nat.compare_eq in El. subst l2.
    destruct a1; try discriminate. exists l1, a2. auto.
  - destruct (r_prec (grule g r)) as [p1|]; [|injection H as <- <- <-; cbn; splits; auto; discriminate].
    destruct (r_prec (grule g r0)) as [p2|]; [|injection H as <- <- <-; cbn; splits; auto; discriminate].
    destruct (precedence_cmp p1 p2); injection H as <- <- <-; cbn; splits; auto; discriminate.
Qed.

Lemma against_noSE : forall l ap n ap' l1 n1, resolve_against g ap l n = (ap', l1, n1) ->
  Forall (fun a => noSE (a_det a)) l ->
  Forall (fun a => noSE (a_det a)) l1 /\ (noSE (a_det ap) -> noSE (a_det ap')) /\
  (a_det ap' = Error -> a_det ap = Error \/ exists r, In (mkAct (a_la ap) (Reduce r)) l /\ tied (a_la ap) r).
Proof.
  induction l as [|[la y] l IH]; intros [lb x] n ap' l1 n1 H HF; cbn [resolve_against a_la a_det] in H.
  - injection H as <- <- <-. splits; auto.
  - destruct (Nat.eqb_spec lb la) as [->|Hne]; [|injection H as <- <- <-; splits; auto].
    destruct (resolve_conflict g la x y) as [[dx dy] e] eqn:Ec.
    destruct (resolve_against g (mkAct la dx) l (if e then S n else n)) as [[ap2 l2] n2] eqn:Er.
    injection H as <- <- <-. inversion HF as [|? ? Hy HF']; subst. cbn [a_det] in Hy.
    destruct (resolve_noSE _ _ _ _ _ _ Ec Hy) as (H1 & H2 & H3). destruct (IH _ _ _ _ _ Er HF') as (H4 & H5 & H6). cbn [a_det a_la] in *.
    splits; auto. intros HE. destruct (H6 HE) as [H|(r & Hr & Ht)].
    + destruct (H3 H) as [?|(r & -> & Ht)]; auto. right. exists r. split; auto. now left.
    + right. exists r. split; auto. now right.
Qed.

Lemma all_noSE : forall k l n l' n', resolve_all g k l n = (l', n') ->
  Forall (fun a => noSE (a_det a)) l -> Forall (fun a => noSE (a_det a)) l'.
Proof.
  induction k as [|k IH]; intros l n l' n' H HF; cbn [resolve_all] in H; [now injection H as <- <-|].
  destruct l as [|ap l]; [now injection H as <- <-|].
  destruct (resolve_against g ap l n) as [[ap' l1] n1] eqn:Ea. destruct (resolve_all g k l1 n1) as [l3 n3] eqn:Er. injection H as <- <-.
  inversion HF as [|? ? Hy HF']; subst. destruct (against_noSE _ _ _ _ _ _ Ea HF') as (H1 & H2 & _). constructor; auto. eapply IH; eauto.
Qed.

Lemma error_src s la : s < ns -> In (mkAct la Error) (acts p3 s) ->
  (exists q, raw g p s la (Shift q)) /\ (exists r, raw g p s la (Reduce r) /\ tied la r) /\
  exists r, In (mkAct la (Reduce r)) (acts p3 s).
Proof.
  intros Hs Hin. pose proof (pp_settled _ _ _ _ _ P s Hs) as S3.
  destruct (settled_src g p p3 s S3 _ _ Hin) as (d0 & R & D). destruct d0; try (inversion D; fail); try (inversion R; fail).
  assert (Hla : la <> g_start g).
  { intros ->. inversion R as [Y q m Hedge Hc| |]; subst. destruct (edge_sym g W p A _ _ _ Hedge) as (HY & _ & _ & HYs).
    unfold covers in Hc. destruct (kind_at g Y) as [[| |ms]|] eqn:K; try congruence.
    pose proof (pp_flat _ _ _ _ _ P Y ms _ K Hc) as Ht. unfold is_term in Ht. destruct (wg_start g W). congruence. }
  split; [eauto|]. destruct (settled_cands g p p3 s S3 la Hla) as (ot & rs & _ & HT & HRd & HG).
  assert (ot = Some s0) as -> by now apply HT. unfold cands in HG. cbn [app List.length resolve_all] in HG.
  destruct (resolve_against g (sh la s0) (map (rd la) rs) 0) as [[ap' l1] n1] eqn:Ea.
  destruct (resolve_all g (List.length (map (rd la) rs)) l1 n1) as [l3 n3] eqn:Er. injection HG as HG Hn3.
  destruct (against_noSE _ _ _ _ _ _ Ea) as (H1 & _ & H3).
  { apply Forall_forall. intros x Hx. apply in_map_iff in Hx as (r & <- & _). exact I. }
  pose proof (all_noSE _ _ _ _ _ Er H1) as H4. rewrite Forall_forall in H4.
  apply group_acts in Hin. rewrite <- HG in Hin. destruct Hin as [-> |Hin]; [|now apply H4 in Hin].
  destruct (H3 eq_refl) as [?|(r & Hr & Ht)]; [discriminate|]. cbn [a_la sh] in *.
  apply in_map_iff in Hr as (r' & Er' & Hr). injection Er' as ->.
  assert (Rr : raw g p s la (Reduce r)) by now apply HRd. split; [eauto|].
  destruct (survivor_max g p p3 s S3 la _ Hla Rr) as (c & Rc & Hc & Hl & _).
  destruct c; try contradiction.
  - exfalso. apply group_acts in Hc. rewrite <- HG in Hc. destruct Hc as [?|Hc]; [discriminate|]. now apply H4 in Hc.
  - exfalso. inversion Rc. congruence.
  - eauto.
Qed.

(** No token of a %nonassoc list has a %fallback. *)
Definition ties_kept : Prop := forall a l, sy_prec (gsym g a) = Some (l, ANone) -> sy_fb (gsym g a) = None.

Lemma error_kept s la : g_wild g = None -> ties_kept -> s < ns -> In (mkAct la Error) (acts p3 s) -> eff (acts p4 s) la = Some Error.
Proof.
  intros Hw Hk Hs Hin. destruct (error_src s la Hs Hin) as ((q & Rq) & (r & Rr & l & c & Hp & _) & r' & Hr').
  destruct (pp_comp _ _ _ _ _ P s Hs) as [[dr|] C]; [apply (co_error _ _ _ _ C _ Hin); discriminate|].
  exfalso. destruct (co_none _ _ _ _ C eq_refl) as [_ [(w & t0 & Hw' & _)|Hall]]; [congruence|].
  specialize (Hall la r' Hr' (Hk _ _ Hp)).
  pose proof (settled_raw g p p3 s la _ (pp_settled _ _ _ _ _ P s Hs) Hr' I) as R1. inversion R1 as [|? ? Hl _|]; subst.
  unfold lhs_start in Hall. apply Nat.eqb_eq in Hall.
  rewrite (start_look g p p3 p4 t P s r' _ la Hl Hall) in Rq. now apply (raw_zero g p p3 p4 t P) in Rq.
Qed.
End Ties.

Section Agree.
Context (g : grammar) (p p3 p4 : pst) (t : tables) (P : Pipe g p p3 p4 t).
Context {M X E R : Type} (h : hooks M X E R).
Let W := pp_wf _ _ _ _ _ P.
Let A := pp_aut _ _ _ _ _ P.
Notation ns := (List.length (p_states p)).
Notation nr := (List.length (g_rules g)).
Notation num := (state_num g p4).
Notation spine := (spine g p p4 (M := M)).
Notation prs := (parser M X R).
Notation tcode := (code ns nr num).
Notation rparse := (rparse g p3 h).

Hypothesis Hwild : g_wild g = None.
(** Error markers reach the table. *)
Hypothesis HE : forall s la, s < ns -> In (mkAct la Error) (acts p3 s) -> eff (acts p4 s) la = Some Error.

Lemma grouped_at s : s < ns -> grouped g (acts p3 s).
Proof. intros Hs. apply (settled_grouped g W p A p3 s (pp_settled _ _ _ _ _ P s Hs)). Qed.

Lemma entry_dec l b : entry_at l b \/ ~ entry_at l b.
Proof.
  unfold entry_at. induction l as [|[c d] l IH].
  - right. intros (d & [] & _).
  - destruct (Nat.eq_dec c b) as [->|Hc].
    + destruct (emits d) eqn:Ed; [left; exists d; split; auto; now left|].
      destruct IH as [(d' & H & He)|H]; [left; exists d'; split; auto; now right|].
      right. intros (d' & [Hd|Hd] & He); [congruence|apply H; eauto].
    + destruct IH as [(d' & H & He)|H]; [left; exists d'; split; auto; now right|].
      right. intros (d' & [Hd|Hd] & He); [congruence|apply H; eauto].
Qed.

Lemma error_dec l b : In (mkAct b Error) l \/ ~ In (mkAct b Error) l.
Proof.
  destruct (in_dec (fun a c : action => ltac:(repeat decide equality)) (mkAct b Error) l); auto.
Qed.

Lemma falls_uncons a b : falls_to g a b -> b = a \/ exists c, fb g a = Some c /\ falls_to g c b.
Proof.
  induction 1 as [|b s0 c Hb IH Hs Hc]; auto. right.
  destruct IH as [->|(d & Hd & Hb')].
  - exists c. split; [unfold fb, gsym; now rewrite (nth_error_nth _ _ _ Hs)|constructor].
  - exists d. split; auto. econstructor; eauto.
Qed.

(** The plain action and the one of the tables are the same, unless no fallback of the
    token has an entry; then the table may answer the default reduction. *)
Lemma ref_cases s : s < ns -> forall n a, fb_ends g n a -> tokenish g a ->
  (exists d, ract g (acts p3 s) a d /\ slook g (acts p4 s) a d) \/
  (ract g (acts p3 s) a Error /\ forall b, falls_to g a b -> ~ entry_at (acts p3 s) b).
Proof.
  intros Hs. induction n as [|n IH]; intros a Hn Ht; [inversion Hn|].
  destruct (pp_comp _ _ _ _ _ P s Hs) as [dr C]. destruct (entry_dec (acts p3 s) a) as [(d & Hin & He)|Hno].
  - left. destruct (error_dec (acts p3 s) a) as [Herr|Herr].
    + exists Error. split; [now constructor|]. apply sl_own. auto.
    + destruct (emits_cases d He) as [Hl| ->]; [|contradiction]. exists d. split; [now apply ra_own|].
      apply (decided_slook g p p3 p4 t P); auto. unfold decided. splits; auto.
  - assert (Heff : eff (acts p4 s) a = None).
    { destruct (eff (acts p4 s) a) as [d|] eqn:Ea; auto. exfalso. apply eff_in in Ea as [Ha Hem].
      apply (co_mem _ _ _ _ C) in Ha; auto; [|now apply (tokenish_dflt g W p)]. apply Hno. exists d; auto. }
    inversion Hn as [a' n' Hf|a' c n' Hf Hc]; subst.
    + right. split; [now apply ra_none|]. intros b Hb.
      assert (b = a) as ->; auto. clear -Hb Hf.
      induction Hb as [|b s0 c Hb IH Hs0 Hc]; auto. subst b.
      unfold fb, gsym in Hf. rewrite (nth_error_nth _ _ _ Hs0) in Hf. congruence.
    + assert (Htc : tokenish g c).
      { eapply (falls_tokenish g p p3 p4 t P a c Ht). econstructor; [constructor|apply (gsym_fb g a c Hf)|exact Hf]. }
      destruct (IH c Hc Htc) as [(d & Hd & Hs')|[Hr Hall]].
      * left. exists d. split; [eapply ra_fb; eauto|]. eapply sl_fb; eauto. apply (fb_nz g W _ _ Hf).
      * right. split; [eapply ra_fb; eauto|]. intros b Hb.
        destruct (falls_uncons a b Hb) as [->|(c' & Hc' & Hb')]; auto.
        apply Hall. unfold fb in *. congruence.
Qed.

Definition rstack (cs : list (entry M)) (stk : list (nat * M)) : Prop :=
  Forall2 (fun e q => e_state e = num (fst q) /\ e_minor e = snd q /\ fst q < ns) cs stk.

Lemma rstack_app cs1 cs2 stk : rstack (cs1 ++ cs2) stk -> exists k1 k2, stk = k1 ++ k2 /\ rstack cs1 k1 /\ rstack cs2 k2.
Proof. apply forall2_split. Qed.
Lemma rstack_len cs stk : rstack cs stk -> List.length cs = List.length stk.
Proof. apply Forall2_length. Qed.
Lemma rstack_minors cs stk : rstack cs stk -> map e_minor cs = map snd stk.
Proof. induction 1 as [|e q cs stk (H1 & H2 & _) H IH]; simpl; congruence. Qed.
Lemma rstack_join cs1 cs2 k1 k2 : rstack cs1 k1 -> rstack cs2 k2 -> rstack (cs1 ++ cs2) (k1 ++ k2).
Proof. apply Forall2_app. Qed.

Lemma goto_edge s Y q : s < ns -> kind_at g Y = Some KNonTerm -> Y <> g_dflt g ->
  In (mkAct Y (Shift q)) (acts p3 s) <-> edge g p s Y q.
Proof.
  intros Hs K Hd. pose proof (nt_range g p p3 p4 t P Y K Hd) as HR. split.
  - intros H. apply (settled_raw g p p3 s _ _ (pp_settled _ _ _ _ _ P s Hs)) in H; [|exact I].
    destruct (nonterm_raw g p p3 p4 t P s Y _ HR H) as [(q' & Eq & He)|(? & _)]; [|discriminate]. injection Eq as <-. exact He.
  - intros He. assert (R0 : raw g p s Y (Shift q)) by (eapply raw_shift; eauto; unfold covers; now rewrite K).
    apply group_acts. rewrite (sole_stays g p p3 s (pp_settled _ _ _ _ _ P s Hs) Y (Shift q) R0); [now left|].
    intros d' R'. destruct (nonterm_raw g p p3 p4 t P s Y _ HR R') as [(q' & -> & He')|(-> & -> & ->)].
    + now rewrite (au_fun g p A _ _ _ _ He He').
    + destruct (edge_sym g W p A _ _ _ He) as (_ & _ & _ & ?). congruence.
Qed.

Lemma accept_edge s Y : s < ns -> kind_at g Y = Some KNonTerm -> Y <> g_dflt g ->
  In (mkAct Y Accept) (acts p3 s) <-> s = 0 /\ Y = g_start g.
Proof.
  intros Hs K Hd. pose proof (nt_range g p p3 p4 t P Y K Hd) as HR. split.
  - intros H. apply (settled_raw g p p3 s _ _ (pp_settled _ _ _ _ _ P s Hs)) in H; [|exact I].
    destruct (nonterm_raw g p p3 p4 t P s Y _ HR H) as [(q' & Eq & He)|(_ & ?)]; [discriminate|auto].
  - intros [-> ->]. assert (R0 : raw g p 0 (g_start g) Accept) by now apply raw_accept.
    apply group_acts. rewrite (sole_stays g p p3 0 (pp_settled _ _ _ _ _ P 0 Hs) _ Accept R0); [now left|].
    intros d' R'. destruct (nonterm_raw g p p3 p4 t P 0 _ _ HR R') as [(q' & -> & He')|(-> & _)]; auto.
    destruct (edge_sym g W p A _ _ _ He') as (_ & _ & _ & ?). congruence.
Qed.

Lemma lhs_dflt r : r < nr -> r_lhs (grule g r) <> g_dflt g.
Proof. intros Hr. apply (wg_rule g W r). now apply nth_grule. Qed.

(** ** Answers of the plain parser are answers of the table *)
Lemma ract_slook s a d : s < ns -> tokenish g a -> ract g (acts p3 s) a d -> d <> Error -> slook g (acts p4 s) a d.
Proof.
  intros Hs Ht H. induction H as [b d Hin Hl Hne|b Hin|b c d Hno Hf Hr IH|b Hno Hf]; intros Hd; try contradiction.
  - apply (decided_slook g p p3 p4 t P); auto. unfold decided. splits; auto.
  - destruct (pp_comp _ _ _ _ _ P s Hs) as [dr C]. eapply sl_fb; [|apply (fb_nz g W b c Hf)|exact Hf|apply IH; auto].
    + destruct (eff (acts p4 s) b) as [d'|] eqn:Ea; auto. exfalso. apply eff_in in Ea as [Ha Hem].
      apply (co_mem _ _ _ _ C) in Ha; auto; [|now apply (tokenish_dflt g W p)]. apply Hno. exists d'; auto.
    + eapply (tokenish_fb g W p b c); auto.
Qed.

Lemma ract_lookup s a d : s < ns -> tokenish g a -> ract g (acts p3 s) a d -> d <> Error ->
  find_shift_action t (num s) a = LAct (tcode d).
Proof. intros. apply (shift_lookup g p p3 p4 t P); auto. now apply ract_slook. Qed.

Lemma ract_raw s a d : s < ns -> ract g (acts p3 s) a d -> d <> Error -> exists b, falls_to g a b /\ raw g p s b d.
Proof.
  intros Hs. induction 1 as [b d Hin Hl Hne|b Hin|b c d Hno Hf Hr IH|b Hno Hf]; intros Hd; try contradiction.
  - exists b. split; [constructor|]. eapply settled_raw; eauto. apply (pp_settled _ _ _ _ _ P s Hs).
  - destruct (IH Hd) as (b' & Hb & HR). exists b'. split; auto. eapply (falls_cons g b c b'); eauto.
Qed.

(** ** Whatever the plain parser accepts, the generated one accepts *)
Definition fine (e : event) : Prop := match e with EvShift _ | EvReduce _ | EvAccept => True | _ => False end.
Notation resume := (resume t h).

(** Accepted with these values and no error on the way, or the stack limit was hit. *)
Definition ends (c : prs * list (nat * M)) (root : R) (x' : X) : Prop := exists n,
  (exists pp' l, resume n c = ROk (root, x') pp' /\ ps_log pp' = l ++ ps_log (fst c) /\ Forall fine l) \/
  (exists e pp' a l, resume n c = RErr e pp' /\ ps_log pp' = EvOverflow a :: l ++ ps_log (fst c) /\ Forall fine l /\ t_limit t <> 0).

Lemma shift_or_overflow (pp : prs) q a m : yy_shift t h pp q a m = ROk tt (set_stack pp (mkEntry q a m :: ps_stack pp)) \/
  (exists e x, yy_shift t h pp q a m = RErr e (log (set_extra pp x) (EvOverflow a)) /\ t_limit t <> 0).
Proof.
  unfold yy_shift. destruct (t_limit t =? 0) eqn:El; cbn [negb andb]; auto.
  destruct (t_limit t <=? List.length (ps_stack pp)); auto. right. destruct (h_overflow h a m (ps_extra pp)) as [x e].
  exists e, x. split; auto. now apply Nat.eqb_neq.
Qed.

Lemma ends_step c c' root x' ev : cstep t h c c' -> ps_log (fst c') = ev :: ps_log (fst c) -> fine ev ->
  ends c' root x' -> ends c root x'.
Proof.
  intros S Hl Hf (n & [(pp' & l & Hr & Hlog & HF)|(e & pp' & a & l & Hr & Hlog & HF & Hlim)]); exists (Datatypes.S n).
  - left. exists pp', (l ++ [ev]). rewrite (cstep_resume t h n c c' S); [|congruence]. splits; auto.
    + rewrite Hlog, Hl, <- app_assoc. reflexivity.
    + apply Forall_app. auto.
  - right. exists e, pp', a, (l ++ [ev]). rewrite (cstep_resume t h n c c' S); [|congruence]. splits; auto.
    + rewrite Hlog, Hl, <- app_assoc. reflexivity.
    + apply Forall_app. auto.
Qed.

Lemma resume_fail (pp p1 : prs) inp e : ps_status pp = Normal ->
  (forall m, parse_token_2 1 t h pp (la_of inp) m = RErr e p1) \/ (exists a m inp', inp = (a, m) :: inp' /\ parse_token_2 1 t h pp a m = RErr e p1) ->
  resume 1 (pp, inp) = RErr e (set_status p1 Failed).
Proof.
  intros Hn H. unfold CompleteFacts.resume. cbn [fst snd].
  destruct H as [H|(a & m & inp' & -> & H)].
  - destruct inp as [|[a m] inp]; cbn [parse_all rbind la_of] in *.
    + unfold end_of_input, parse_token. now rewrite Hn, H.
    + unfold parse_token. now rewrite Hn, H.
  - cbn [parse_all]. unfold parse_token. now rewrite Hn, H.
Qed.

Lemma top_same (pp : prs) st Xs s bot s1 v1 k : spine st Xs s -> ps_stack pp = st ++ [bot] -> e_state bot = num 0 ->
  rstack (ps_stack pp) ((s1, v1) :: k) -> s1 = s /\ exists tp rest, ps_stack pp = tp :: rest /\ e_state tp = num s.
Proof.
  intros Hsp Est Hb Hr. destruct (spine_top g p p4 st Xs s bot Hsp Hb) as (tp & rest & Et & Etop).
  rewrite Est, Et in Hr |- *. split; [|eauto]. inversion Hr as [|e q cs k' H1 Hk E1 E2]. destruct H1 as (H1 & _ & L). cbn [fst] in *.
  apply (num_inj g p p3 p4 t P); [exact L|eapply (spine_range g p p3 p4 t P); eauto|]. rewrite <- Etop. symmetry. exact H1.
Qed.

Theorem ref_run stk x inp x' root : rparse stk x inp x' root -> forall (pp : prs) st Xs s bot,
  ps_status pp = Normal -> spine st Xs s -> ps_stack pp = st ++ [bot] -> e_state bot = num 0 ->
  rstack (ps_stack pp) stk -> ps_extra pp = x -> tokens_ok g inp -> ends (pp, inp) root x'.
Proof.
  assert (Hla : forall inp : list (nat * M), tokens_ok g inp -> tokenish g (la_of inp)).
  { intros [|[a m] inp0] Ht; left; simpl; [apply (wg_nterm_pos g W)|]. apply (Ht a m). now left. }
  induction 1 as [s1 v1 stk x a m inp q x' root Hra HR IH
    |[s1 v1] stk x inp r ru pop s0 v0 rest x1 v q x' root Ek Hra Hru Lp Hred Hgo HR IH
    |[s1 v1] stk x r ru pop s0 v0 rest x1 v root Ek Hra Hru Lp Hred Hgo Hacc];
    intros pp st Xs s bot Hn Hsp Est Hb Hst Hx Hts; cbn [fst] in *;
    destruct (top_same pp st Xs s bot s1 v1 stk Hsp Est Hb Hst) as (-> & tp & rst & Etp & Htp);
    pose proof (spine_range g p p3 p4 t P _ _ _ Hsp) as Hs.
  - (* shift *)
    destruct (ract_raw s a _ Hs Hra) as (b & Hab & Hraw); [discriminate|].
    inversion Hraw as [Y q' m' Hedge Hcov| |]; subst.
    assert (Hta : 0 < a < g_nterm g) by (apply (Hts a m); now left).
    pose proof (ract_lookup s a _ Hs (or_introl (proj2 Hta)) Hra ltac:(discriminate)) as Hlk. change (tcode (Shift q)) with (num q) in Hlk.
    destruct (au_edge g p A _ _ _ Hedge) as (Hq & _).
    pose proof (num_lt g p p3 p4 t P q Hq) as Hlt.
    destruct (shift_or_overflow pp (num q) a m) as [Hy|(e & xo & Hy & Hlim)].
    + eapply ends_step with (ev := EvShift a).
      * eapply c_shift with (tp := tp) (rest := rst) (q := num q); [exact Hn|exact Etp|rewrite Htp; exact Hlk|rewrite (t_ns g p p3 p4 t P); exact Hlt|lia|exact Hy].
      * reflexivity.
      * exact I.
      * eapply (IH _ (mkEntry (num q) a m :: st) (Y :: Xs) q bot); auto.
        -- econstructor; eauto.
        -- cbn. now rewrite Est.
        -- cbn. constructor; auto.
        -- intros a0 m0 H0. apply (Hts a0 m0). now right.
    + exists 1. right. exists e, (set_status (log (set_extra pp xo) (EvOverflow a)) Failed), a, []. splits; [|reflexivity|constructor|auto].
      apply resume_fail with (p1 := log (set_extra pp xo) (EvOverflow a)); auto. right. exists a, m, inp. split; auto.
      rewrite parse_token_2_S, Hn, Etp, Htp, Hlk, (t_ns g p p3 p4 t P). apply Nat.ltb_lt in Hlt. rewrite Hlt.
      replace (a =? 0) with false by (symmetry; apply Nat.eqb_neq; lia). now rewrite Hy.
  - (* reduce *)
    destruct (ract_raw s _ _ Hs Hra) as (b & Hab & Hraw); [discriminate|].
    inversion Hraw as [|r' b' Hlook Hbt|]; subst. pose proof (look_item p _ _ _ Hlook) as Hi.
    pose proof (item_rule g p p3 p4 t P _ _ _ Hi) as Hrn. pose proof (grule_nth g _ _ Hru) as Er.
    pose proof (ract_lookup s _ _ Hs (Hla _ Hts) Hra ltac:(discriminate)) as Hlk. change (tcode (Reduce r)) with (ns + r) in Hlk.
    destruct (yy_reduce_eq g p p3 p4 t P h pp r st Xs s bot Hsp Est Hb Hi) as (sa & sb & Xa & Xb & sz & -> & -> & L & HX & Hsz & HC).
    assert (Hss : sz = s0 /\ rstack (sb ++ [bot]) ((s0, v0) :: rest) /\ map e_minor sa = map snd pop).
    { rewrite Est, <- app_assoc in Hst. rewrite Ek in Hst. destruct (rstack_app _ _ _ Hst) as (k1 & k2 & Eq & K1 & K2).
      assert (Ll : List.length k1 = List.length pop).
      { rewrite <- (rstack_len _ _ K1), L, Lp, <- (rev_length Xa), HX, map_length, Er. reflexivity. }
      symmetry in Eq. apply app_split_len in Eq as [-> ->]; auto. splits; auto; [|now apply rstack_minors].
      destruct (top_same (set_stack pp (sb ++ [bot])) sb Xb sz bot s0 v0 rest Hsz eq_refl Hb K2) as (-> & _). reflexivity. }
    destruct Hss as (-> & K2 & Emin). pose proof (spine_range g p p3 p4 t P _ _ _ Hsz) as Hs0.
    rewrite <- Er in Hgo. apply (goto_edge s0 _ q Hs0 (lhs_nt g p p3 p4 t P _ Hrn) (lhs_dflt _ Hrn)) in Hgo.
    destruct HC as [(Hstt & _)|(_ & q' & Hq' & Hy)]; [exfalso; destruct (edge_sym g W p A _ _ _ Hgo) as (_ & _ & _ & ?); congruence|].
    assert (q' = q) as -> by (eapply (au_fun g p A); eauto). rewrite Emin, Hred in Hy.
    destruct (au_edge g p A _ _ _ Hgo) as (Hq & _).
    destruct (shift_or_overflow (after_reduce pp r x1 (sb ++ [bot])) (num q) (r_lhs (grule g r)) v) as [Hz|(e & xo & Hz & Hlim)]; rewrite Hz in Hy.
    + eapply ends_step with (ev := EvReduce r).
      * eapply c_reduce with (tp := tp) (rest := rst) (r := r); eauto.
        -- rewrite Htp, (t_ns g p p3 p4 t P). exact Hlk.
        -- now rewrite (t_nr g p p3 p4 t P).
      * reflexivity.
      * exact I.
      * eapply (IH _ (mkEntry (num q) (r_lhs (grule g r)) v :: sb) (r_lhs (grule g r) :: Xb) q bot); auto.
        -- econstructor; eauto.
        -- cbn. constructor; auto.
    + exists 1. right. exists e, (set_status (log (set_extra (after_reduce pp r x1 (sb ++ [bot])) xo) (EvOverflow (r_lhs (grule g r)))) Failed), (r_lhs (grule g r)), [EvReduce r]. splits; [|reflexivity|repeat constructor|auto].
      eapply resume_fail; auto. left. intros m.
      rewrite parse_token_2_S, Hn, Etp, Htp, Hlk, (t_ns g p p3 p4 t P), (t_nr g p p3 p4 t P).
      replace (ns + r <? ns) with false by (symmetry; apply Nat.ltb_ge; lia).
      replace (ns + r <? ns + nr) with true by (symmetry; apply Nat.ltb_lt; lia).
      replace (ns + r - ns) with r by lia. rewrite Hy. reflexivity.
  - (* accept *)
    destruct (ract_raw s _ _ Hs Hra) as (b & Hab & Hraw); [discriminate|].
    inversion Hraw as [|r' b' Hlook Hbt|]; subst. pose proof (look_item p _ _ _ Hlook) as Hi.
    pose proof (item_rule g p p3 p4 t P _ _ _ Hi) as Hrn. pose proof (grule_nth g _ _ Hru) as Er.
    pose proof (ract_lookup s _ _ Hs (Hla [] Hts) Hra ltac:(discriminate)) as Hlk. change (tcode (Reduce r)) with (ns + r) in Hlk.
    destruct (yy_reduce_eq g p p3 p4 t P h pp r st Xs s bot Hsp Est Hb Hi) as (sa & sb & Xa & Xb & sz & -> & -> & L & HX & Hsz & HC).
    assert (Hss : sz = s0 /\ rstack (sb ++ [bot]) ((s0, v0) :: rest) /\ map e_minor sa = map snd pop).
    { rewrite Est, <- app_assoc in Hst. rewrite Ek in Hst. destruct (rstack_app _ _ _ Hst) as (k1 & k2 & Eq & K1 & K2).
      assert (Ll : List.length k1 = List.length pop).
      { rewrite <- (rstack_len _ _ K1), L, Lp, <- (rev_length Xa), HX, map_length, Er. reflexivity. }
      symmetry in Eq. apply app_split_len in Eq as [-> ->]; auto. splits; auto; [|now apply rstack_minors].
      destruct (top_same (set_stack pp (sb ++ [bot])) sb Xb sz bot s0 v0 rest Hsz eq_refl Hb K2) as (-> & _). reflexivity. }
    destruct Hss as (-> & K2 & Emin). pose proof (spine_range g p p3 p4 t P _ _ _ Hsz) as Hs0.
    rewrite <- Er in Hgo. apply (accept_edge s0 _ Hs0 (lhs_nt g p p3 p4 t P _ Hrn) (lhs_dflt _ Hrn)) in Hgo as [-> Hstt].
    destruct HC as [(_ & _ & _ & Hy)|(? & _)]; [|contradiction]. rewrite Emin, Hred, Hacc in Hy.
    exists 2. left. exists (log (set_status (set_stack (after_reduce pp r x1 [bot]) []) (Accepted root)) EvAccept), [EvAccept; EvReduce r]. splits; [|reflexivity|repeat constructor].
    unfold CompleteFacts.resume. cbn [fst snd parse_all rbind]. unfold end_of_input, parse_token.
    rewrite Hn, parse_token_2_S, Hn, Etp, Htp. cbn [la_of] in Hlk. rewrite Hlk, (t_ns g p p3 p4 t P), (t_nr g p p3 p4 t P).
    replace (ns + r <? ns) with false by (symmetry; apply Nat.ltb_ge; lia).
    replace (ns + r <? ns + nr) with true by (symmetry; apply Nat.ltb_lt; lia).
    replace (ns + r - ns) with r by lia. rewrite Hy. reflexivity.
Qed.

(** ** Whatever the generated parser accepts without a syntax error, the plain one accepts *)
Lemma raw_entry s b d : s < ns -> b < g_nterm g -> raw g p s b d -> entry_at (acts p3 s) b.
Proof.
  intros Hs Hb HR. destruct (survivor_max g p p3 s (pp_settled _ _ _ _ _ P s Hs) b d) as (c & _ & Hin & Hl & _); auto.
  - intros ->. pose proof (nonterm_ge g W _ (proj1 (wg_start g W))). lia.
  - exists c. split; auto. now apply live_emits.
Qed.

Lemma slook_kinds s a d : s < ns -> a < g_nterm g -> slook g (acts p4 s) a d ->
  (exists q b, d = Shift q /\ falls_to g a b /\ b < g_nterm g /\ raw g p s b (Shift q)) \/
  (exists r, d = Reduce r /\ item p s (r, rlen g r) /\ (r_lhs (grule g r) = g_start g -> a = 0)) \/ d = Error.
Proof.
  intros Hs Ha Hd. assert (Ht : tokenish g a) by now left.
  destruct (pp_comp _ _ _ _ _ P s Hs) as [dr C]. pose proof (comp_dd g p p3 p4 s dr Hs C) as Hdd.
  destruct (slook_where g _ _ _ Hd) as [(b & Hb & He)| ->].
  - apply eff_in in He as [Hin Hem]. pose proof (looks_tokenish g p p3 p4 t P _ _ Ht Hb) as Htb.
    destruct (comp_src g p p3 p4 t P s b d Hs Hin Hem (tokenish_dflt g W p b Htb)) as [[Hl R0]|[-> _]]; auto.
    assert (Hfb : falls_to g a b) by (destruct Hb as [b Hb|w _ Hw]; [auto|congruence]).
    destruct d; try contradiction.
    + left. exists s0, b. splits; auto. pose proof (raw_le_dflt g p p3 p4 t P _ _ _ R0). unfold tokenish in Htb. lia.
    + exfalso. inversion R0; subst. pose proof (proj1 (wg_start g W)) as Hk. apply (wg_nonterm g W) in Hk. unfold tokenish in Htb. lia.
    + right. left. inversion R0; subst. exists r. splits; auto; [eapply look_item; eauto|].
      intros Hst. apply (looks_at_zero g p p3 p4 t P). erewrite <- (start_look g p p3 p4 t P s r _ b); eauto.
  - rewrite Hdd. destruct dr as [r|]; auto. right. left. exists r. split; auto.
    destruct (co_rule _ _ _ _ C r eq_refl) as (Hns & la0 & Hin).
    pose proof (settled_raw g p p3 s la0 _ (pp_settled _ _ _ _ _ P s Hs) Hin I) as R0. inversion R0; subst. split; [eapply look_item; eauto|].
    intros Hst. exfalso. unfold lhs_start in Hns. rewrite Hst, Nat.eqb_refl in Hns. discriminate.
Qed.

Lemma follows_entry (st : list (entry M)) Xs s r b : spine st Xs s -> b < g_nterm g ->
  lr1 g (rev Xs) r (rlen g r) b -> entry_at (acts p3 s) b.
Proof.
  intros Hsp Hbt H1. pose proof (spine_range g p p3 p4 t P _ _ _ Hsp) as Hs.
  pose proof (lr1_spread g p A _ _ _ _ H1 s (spine_path g p p4 _ _ _ Hsp)) as Sd.
  apply (raw_entry s b (Reduce r) Hs Hbt). constructor; auto. apply (look_of g p A). exact Sd.
Qed.

Lemma tok_ref n : forall (pp pp' : prs) a m st Xs s bot stk, ps_status pp = Normal -> spine st Xs s ->
  ps_stack pp = st ++ [bot] -> e_state bot = num 0 -> rstack (ps_stack pp) stk -> a < g_nterm g ->
  parse_token_2 n t h pp a m = ROk tt pp' -> ~ dropped pp' ->
  (exists b, falls_to g a b /\ b < g_nterm g /\ follows g (rev Xs) b) /\
  ((a = 0 /\ exists root, ps_status pp' = Accepted root /\ rparse stk (ps_extra pp) [] (ps_extra pp') root) \/
   (a <> 0 /\ ps_status pp' = Normal /\ exists st' Xs' s' stk', spine st' Xs' s' /\ ps_stack pp' = st' ++ [bot] /\
      rstack (ps_stack pp') stk' /\
      forall inp x' root, rparse stk' (ps_extra pp') inp x' root -> rparse stk (ps_extra pp) ((a, m) :: inp) x' root)).
Proof.
  induction n as [|n IH]; intros pp pp' a m st Xs s bot stk Hn Hsp Est Hb Hst Ha H Hd; [discriminate|].
  pose proof (spine_range g p p3 p4 t P _ _ _ Hsp) as Hs.
  assert (Hta : tokenish g a) by now left.
  destruct (spine_top g p p4 st Xs s bot Hsp Hb) as (tp & rst & Etp & Htp). rewrite <- Est in Etp.
  destruct stk as [|[s1 v1] stk]; [rewrite Etp in Hst; inversion Hst|].
  destruct (top_same pp st Xs s bot s1 v1 stk Hsp Est Hb Hst) as (-> & _).
  destruct (shift_lookup_total g p p3 p4 t P s a Hs Hta) as (d & Hsl & Hlk).
  rewrite parse_token_2_S, Hn, Etp, Htp, Hlk, (t_ns g p p3 p4 t P), (t_nr g p p3 p4 t P) in H.
  pose proof (ref_cases s Hs _ a (fb_ends_acyclic g p (pp_fb _ _ _ _ _ P) a) Hta) as HC.
  assert (HC' : ract g (acts p3 s) a d \/ forall b, falls_to g a b -> ~ entry_at (acts p3 s) b).
  { destruct HC as [(d' & Hr & Hs')|[_ HC]]; auto. left. now rewrite <- (slook_fun _ _ _ _ Hsl _ Hs'). }
  clear HC. destruct (slook_kinds s a d Hs Ha Hsl) as [(q & b & -> & Hab & Hbt & Hraw)|[(r & -> & Hi & Hz)| ->]].
  - (* shift *)
    change (tcode (Shift q)) with (num q) in H. inversion Hraw as [Y q' m' Hedge Hcov| |]; subst.
    destruct (au_edge g p A _ _ _ Hedge) as (Hq & k & Hk & HkY). pose proof (num_lt g p p3 p4 t P q Hq) as Hlt. apply Nat.ltb_lt in Hlt. rewrite Hlt in H.
    destruct (Nat.eqb_spec a 0) as [|Ha0]; [discriminate|].
    destruct (yy_shift t h pp (num q) a m) as [[] p1|e p1| |] eqn:Es; try discriminate. cbn [rbind] in H. injection H as <-.
    apply yy_shift_ok in Es. subst p1. cbn [ps_stack ps_extra ps_status set_stack set_count log].
    destruct HC' as [Hr|HB]; [|exfalso; apply (HB b Hab); eapply raw_entry; eauto].
    split.
    + exists b. splits; auto. destruct k as [r0 d0]. pose proof (item_lr0 g p A _ _ _ (spine_path g p p4 _ _ _ Hsp) Hk) as H0.
      cbn [fst snd] in H0. pose proof (au_valid g p A _ _ Hk) as Hv.
      destruct (nth_kpost g _ _ Hv HkY) as (ru & al & Hru & Hnth & _). cbn [fst snd] in *.
      exists r0, ru, d0. split; auto. left. split; auto. rewrite (skip_nth _ _ _ Hnth). cbn [map fst]. apply f_here.
      assert (HY : Y < List.length (g_syms g)) by apply (edge_sym g W p A _ _ _ Hedge).
      constructor. eapply (covers_member g p p3 p4 t P); eauto. now left.
    + right. splits; auto. exists (mkEntry (num q) a m :: st), (Y :: Xs), q, ((q, m) :: (s, v1) :: stk). splits.
      * econstructor; eauto.
      * now rewrite Est.
      * constructor; auto.
      * intros inp x' root Hp. eapply rp_shift; eauto.
  - (* reduce *)
    change (tcode (Reduce r)) with (ns + r) in H.
    pose proof (item_rule g p p3 p4 t P _ _ _ Hi) as Hrn.
    replace (ns + r <? ns) with false in H by (symmetry; apply Nat.ltb_ge; lia).
    replace (ns + r <? ns + nr) with true in H by (symmetry; apply Nat.ltb_lt; lia). replace (ns + r - ns) with r in H by lia.
    destruct (yy_reduce_eq g p p3 p4 t P h pp r st Xs s bot Hsp Est Hb Hi) as (sa & sb & Xa & Xb & s0 & -> & -> & L & HX & Hsz & HY).
    pose proof (nth_grule g r Hrn) as Hru.
    assert (Hss : exists pop v0 rest, (s, v1) :: stk = pop ++ (s0, v0) :: rest /\ rstack (sb ++ [bot]) ((s0, v0) :: rest) /\
        List.length pop = List.length (r_rhs (grule g r)) /\ map e_minor sa = map snd pop).
    { rewrite Est, <- app_assoc in Hst. destruct (rstack_app _ _ _ Hst) as (k1 & k2 & Eq & K1 & K2).
      destruct k2 as [|[sy vy] k2]; [apply rstack_len in K2; rewrite app_length in K2; simpl in K2; lia|].
      destruct (top_same (set_stack pp (sb ++ [bot])) sb Xb s0 bot sy vy k2 Hsz eq_refl Hb K2) as (-> & _).
      exists k1, vy, k2. splits; auto; [|now apply rstack_minors].
      rewrite <- (rstack_len _ _ K1), L, <- (rev_length Xa), HX, map_length. reflexivity. }
    destruct Hss as (pop & v0 & rest & Ek & K2 & Lp & Emin). pose proof (spine_range g p p3 p4 t P _ _ _ Hsz) as Hs0.
    assert (Hfe : forall b, b < g_nterm g -> falls_to g a b -> lr1 g (rev (Xa ++ Xb)) r (rlen g r) b ->
        (exists b, falls_to g a b /\ b < g_nterm g /\ follows g (rev (Xa ++ Xb)) b) /\ ract g (acts p3 s) a (Reduce r)).
    { intros b Hbt Hab H1. split.
      - exists b. splits; auto. exists r, (grule g r), (rlen g r). split; auto. right. split; auto.
        unfold rlen. rewrite skipn_all. constructor.
      - destruct HC' as [Hr|HB]; auto. exfalso. apply (HB b Hab). eapply (follows_entry _ _ s r b Hsp); eauto. }
    destruct HY as [(Hstt & -> & -> & Hy)|(Hns & q & Hq & Hy)].
    + (* accept *)
      specialize (Hz Hstt). subst a. rewrite Hy in H.
      destruct (h_reduce h r (rev (map e_minor sa)) (ps_extra pp)) as [[x1 [v|e]]|] eqn:Hred; try discriminate.
      destruct (h_accept h v) as [root|] eqn:Hacc; [|discriminate]. cbn [rbind] in H.
      destruct n as [|n]; [discriminate|]. rewrite parse_token_2_S in H. cbn [ps_status log set_status] in H. injection H as <-.
      assert (H1 : lr1 g (rev (Xa ++ [])) r (rlen g r) 0).
      { rewrite app_nil_r, HX. pose proof (lr1_over g [] r 0 (grule g r) Hru (lr1_start g r _ Hru Hstt) (rlen g r) (Nat.le_refl _)) as Ho.
        unfold rlen in Ho. rewrite firstn_all in Ho. exact Ho. }
      destruct (Hfe 0 (wg_nterm_pos g W) (falls_refl g 0) H1) as [HF Hr]. split; auto.
      left. split; auto. exists root. split; [reflexivity|]. cbn [ps_extra log set_status set_stack after_reduce set_extra].
      assert (s0 = 0) as -> by (inversion Hsz; auto).
      eapply rp_accept with (pop := pop) (s0 := 0) (v0 := v0) (rest := rest) (r := r) (v := v); eauto.
      * now rewrite <- Emin.
      * apply (accept_edge 0); auto; [apply (lhs_nt g p p3 p4 t P _ Hrn)|now apply lhs_dflt].
    + rewrite Hy in H. destruct (h_reduce h r (rev (map e_minor sa)) (ps_extra pp)) as [[x1 [v|e]]|] eqn:Hred; try discriminate.
      destruct (yy_shift t h (after_reduce pp r x1 (sb ++ [bot])) (num q) (r_lhs (grule g r)) v) as [[] p1|e p1| |] eqn:Es; try discriminate.
      cbn [rbind] in H. apply yy_shift_ok in Es.
      destruct (au_edge g p A _ _ _ Hq) as (Hqn & _).
      assert (Hst1 : rstack (ps_stack p1) ((q, v) :: (s0, v0) :: rest)) by (subst p1; cbn; constructor; auto).
      destruct (IH p1 pp' a m (mkEntry (num q) (r_lhs (grule g r)) v :: sb) (r_lhs (grule g r) :: Xb) q bot ((q, v) :: (s0, v0) :: rest)) as [(b & Hab & Hbt & Hfo) Hres]; auto.
      * subst p1. exact Hn.
      * econstructor; eauto.
      * subst p1. reflexivity.
      * assert (H1 : lr1 g (rev (Xa ++ Xb)) r (rlen g r) b).
        { rewrite rev_app_distr, HX. cbn [rev] in Hfo. exact (follows_reduce g (rev Xb) r (grule g r) b Hru Hfo). }
        destruct (Hfe b Hbt Hab H1) as [HF Hr]. split; auto.
        assert (Hgo : In (mkAct (r_lhs (grule g r)) (Shift q)) (acts p3 s0)).
        { apply goto_edge; auto; [apply (lhs_nt g p p3 p4 t P _ Hrn)|now apply lhs_dflt]. }
        assert (Ex1 : ps_extra p1 = x1) by (subst p1; reflexivity). rewrite Emin in Hred. rewrite Ex1 in Hres.
        destruct Hres as [(-> & root & Hroot & Hp)|(Ha0 & Hn' & st' & Xs' & s' & stk' & R1 & R2 & R3 & R4)].
        -- left. split; auto. exists root. split; auto. eapply rp_reduce; eauto.
        -- right. splits; auto. exists st', Xs', s', stk'. splits; auto. intros inp x' root Hp. eapply rp_reduce; eauto.
  - (* error *)
    exfalso. change (tcode Error) with (ns + nr) in H.
    replace (ns + nr <? ns) with false in H by (symmetry; apply Nat.ltb_ge; lia). rewrite Nat.ltb_irrefl, Nat.eqb_refl in H.
    apply Hd. apply syntax_error_ok in H as [l Hl]. exists a. rewrite Hl. now left.
Qed.

Theorem run_ref n x ts root x' (pp : prs) : tokens_ok g ts -> run n t h x ts = ROk (root, x') pp -> ~ dropped pp ->
  rparse [(0, h_unit h)] x ts x' root.
Proof.
  assert (HAll : forall ts (p0 p1 : prs) st Xs s bot stk, tokens_ok g ts -> ps_status p0 = Normal -> spine st Xs s ->
    ps_stack p0 = st ++ [bot] -> e_state bot = num 0 -> rstack (ps_stack p0) stk ->
    parse_all n t h p0 ts = ROk tt p1 -> ~ dropped p1 ->
    ps_status p1 = Normal /\ exists st' Xs' s' stk', spine st' Xs' s' /\ ps_stack p1 = st' ++ [bot] /\
      rstack (ps_stack p1) stk' /\
      forall x' root, rparse stk' (ps_extra p1) [] x' root -> rparse stk (ps_extra p0) ts x' root).
  { clear x ts root x' pp. induction ts as [|[a m] ts IH]; intros p0 p1 st Xs s bot stk Hts Hn Hsp Est Hb Hst H Hd; cbn [parse_all] in H.
    - injection H as <-. split; auto. exists st, Xs, s, stk. splits; auto.
    - destruct (parse_token n t h p0 a m) as [[] pm|e pm| |] eqn:E1; try discriminate. cbn [rbind] in H.
      pose proof (Hts a m (or_introl eq_refl)) as [Ha0 Ha]. unfold parse_token in E1. rewrite Hn in E1.
      destruct (parse_token_2 n t h p0 a m) as [[] pz|e pz| |] eqn:Ez; try discriminate. injection E1 as ->.
      assert (Hdm : ~ dropped pm).
      { intros D. apply Hd. eapply dropped_ext; [|exact D]. pose proof (parse_all_ext t h n ts pm) as HX. now rewrite H in HX. }
      destruct (tok_ref n p0 pm a m st Xs s bot stk Hn Hsp Est Hb Hst Ha Ez Hdm) as [_ [(Hz & _)|(_ & Hn1 & st1 & Xs1 & s1 & stk1 & R1 & R2 & R3 & R4)]]; [lia|].
      destruct (IH pm p1 st1 Xs1 s1 bot stk1) as (Hn2 & st2 & Xs2 & s2 & stk2 & Q1 & Q2 & Q3 & Q4); auto.
      { intros a' m' Hin. apply (Hts a' m'). now right. }
      split; auto. exists st2, Xs2, s2, stk2. splits; auto. }
  intros Hts H Hd. unfold run in H. destruct (parse_all n t h (new_parser h x) ts) as [[] p1|e p1| |] eqn:E1; try discriminate.
  cbn [rbind] in H. unfold end_of_input in H.
  destruct (parse_token n t h p1 0 (h_unit h)) as [[] p2|e p2| |] eqn:E2; try discriminate. cbn [rbind] in H.
  destruct (ps_status p2) as [| |root'] eqn:Es; try discriminate. injection H as <- <- <-.
  assert (Hd1 : ~ dropped p1).
  { intros D. apply Hd. eapply dropped_ext; [|exact D]. pose proof (parse_token_ext t h n p1 0 (h_unit h)) as HX. now rewrite E2 in HX. }
  assert (Hrs : rstack [mkEntry 0 0 (h_unit h)] [(0, h_unit h)]).
  { constructor; [|constructor]. cbn. splits; auto; [now rewrite (num_0 g p p3 p4 t P)|apply (au_pos g p A)]. }
  destruct (HAll ts (new_parser h x) p1 [] [] 0 (mkEntry 0 0 (h_unit h)) [(0, h_unit h)]) as (Hn & st & Xs & s & stk & R1 & R2 & R3 & R4); auto.
  { constructor. }
  { symmetry. apply (num_0 g p p3 p4 t P). }
  apply R4. unfold parse_token in E2. rewrite Hn in E2.
  destruct (parse_token_2 n t h p1 0 (h_unit h)) as [[] pz|e pz| |] eqn:Ez; try discriminate. injection E2 as ->.
  destruct (tok_ref n p1 p2 0 (h_unit h) st Xs s _ stk Hn R1 R2 (eq_sym (num_0 g p p3 p4 t P)) R3 (wg_nterm_pos g W) Ez Hd)
    as [_ [(_ & r & Er & Hr)|(Hz & _)]]; [|contradiction]. congruence.
Qed.

Theorem ref_run_0 x ts root x' : tokens_ok g ts -> rparse [(0, h_unit h)] x ts x' root -> exists n,
  (exists pp, run n t h x ts = ROk (root, x') pp /\ Forall fine (ps_log pp)) \/
  (exists e pp a l, run n t h x ts = RErr e pp /\ ps_log pp = EvOverflow a :: l /\ Forall fine l /\ t_limit t <> 0).
Proof.
  intros Hts H.
  assert (Hrs : rstack [mkEntry 0 0 (h_unit h)] [(0, h_unit h)]).
  { constructor; [|constructor]. cbn. splits; auto; [now rewrite (num_0 g p p3 p4 t P)|apply (au_pos g p A)]. }
  destruct (ref_run _ _ _ _ _ H (new_parser h x) [] [] 0 (mkEntry 0 0 (h_unit h))) as [n Hn]; auto.
  { constructor. }
  { symmetry. apply (num_0 g p p3 p4 t P). }
  exists n. cbn [fst ps_log new_parser] in Hn. destruct Hn as [(pp & l & Hr & Hl & Hf)|(e & pp & a & l & Hr & Hl & Hf & Ht)].
  - left. exists pp. rewrite app_nil_r in Hl. subst l. split; auto.
  - right. exists e, pp, a, l. rewrite app_nil_r in Hl. splits; auto.
Qed.
End Agree.

(** C35 *)
Theorem tables_agree g p p3 p4 t (P : Pipe g p p3 p4 t) {M X E R} (h : hooks M X E R) :
  g_wild g = None -> ties_kept g -> forall x ts root x', tokens_ok g ts -> t_limit t = 0 ->
  (exists n pp, run n t h x ts = ROk (root, x') pp /\ ~ dropped pp) <-> rparse g p3 h [(0, h_unit h)] x ts x' root.
Proof.
  intros Hw Hk x ts root x' Hts Hl.
  assert (HE : forall s la, s < List.length (p_states p) -> In (mkAct la Error) (acts p3 s) -> eff (acts p4 s) la = Some Error).
  { intros s la. now apply (error_kept g p p3 p4 t P). }
  split.
  - intros (n & pp & H & Hd). now apply (run_ref g p p3 p4 t P h Hw HE n x ts root x' pp).
  - intros H. destruct (ref_run_0 g p p3 p4 t P h Hw x ts root x' Hts H) as [n [(pp & Hr & Hf)|(e & pp & a & l & _ & _ & _ & Hc)]]; [|contradiction].
    exists n, pp. split; auto. intros [a Ha]. rewrite Forall_forall in Hf. now apply Hf in Ha.
Qed.
