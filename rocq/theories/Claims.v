(** The remaining guarantees at the level of declarations, tables and API. *)
From Coq Require Import Permutation.
From Verif Require Import Base Syntax BaseFacts FrontEnd First States Actions Tables Runtime User Spec WfGrammar FirstFacts ClosureFacts AutoFacts LalrFacts ActFacts GroupFacts CompFacts TabFacts PackFacts LookFacts PipeFacts RunFacts FrontFacts
  SoundFacts SafeFacts BuildFacts AbsFacts HaltFacts TermFacts CompleteFacts CleanFacts RefFacts DeclSpec DeclFacts GramFacts LangFacts TypeFacts MeanSpec MeanFacts TypeDecl RunMore Main.
Open Scope string_scope. Open Scope nat_scope. Open Scope list_scope.

Section Build.
Context (ds : list decl) (b : built).
Notation g := (bt_grammar b). Notation t := (bt_tables b).
Hypothesis EX : expands ds b.
Hypothesis US : usable ds b.

(** ** C06 *)
Theorem parse_ends {V X E} (sm : sem V X E) x ks : plain ds -> all_say ds -> types_ok ds -> tokens_wf b ks ->
  exists n, forall n', n <= n' -> api_run n' t sm x ks = api_run n t sm x ks /\ api_run n t sm x ks <> RFuel.
Proof.
  intros HP HS TO Hk. unfold api_run.
  eapply (run_ends _ _ _ _ _ (ex_pipe ds b EX US) (user_hooks t sm)); eauto using ex_hooks, ex_single, ex_start, input_wf.
  eapply says_derive; eauto.
Qed.

(** ** C23 *)
(** The errors that can come out of end_of_input: of the block of the rule reduced last, of
    %parse_fail or of %stack_overflow *)
Inductive end_blame {V X E} (h : hooks (minor V) X E V) (e : E) (p : parser (minor V) X V) : Prop :=
| eb_reduce r vals x0 l : ps_log p = EvReduce r :: l -> h_reduce h r vals x0 = Some (ps_extra p, inr e) -> end_blame h e p
| eb_fail x0 l : ps_log p = EvParseFail :: l -> h_fail h x0 = (ps_extra p, e) -> end_blame h e p
| eb_overflow a m x0 l : ps_log p = EvOverflow a :: l -> h_overflow h a m x0 = (ps_extra p, e) -> end_blame h e p.
Definition quiet (e : event) : Prop := match e with EvSyntaxError _ | EvDrop _ | EvShift _ => False | _ => True end.

Theorem end_exact {V X E} (sm : sem V X E) n n' x ks pp : types_ok ds -> tokens_wf b ks ->
  parse_all n t (user_hooks t sm) (new_parser (user_hooks t sm) x) (map (token_value t sm) ks) = ROk tt pp ->
  ps_status pp = Normal /\
  match end_of_input n' t (user_hooks t sm) pp with
  | ROk (r, x') pp' => accepting ds pp' /\ ps_status pp' = Accepted r /\ x' = ps_extra pp' /\ exists l, ps_log pp' = l ++ ps_log pp /\ Forall quiet l
  | RErr e pp' => end_blame (user_hooks t sm) e pp' /\ exists l, ps_log pp' = l ++ ps_log pp /\ l <> [] /\ Forall quiet l
  | RPanic => False
  | RFuel => True
  end.
Proof.
  intros TO Hk H. pose proof (parse_all_safe _ _ _ _ _ (ex_pipe ds b EX US) _ _ _ (ex_hooks ds b EX US sm TO) n _ _ (new_safe _ _ _ _ _ (ex_pipe ds b EX US) (user_hooks t sm) _ x) (input_wf ds b EX US sm ks Hk)) as HS.
  rewrite H in HS. split; [apply HS|].
  pose proof (end_safe _ _ _ _ _ (ex_pipe ds b EX US) _ _ _ (ex_hooks ds b EX US sm TO) n' pp HS) as He. revert He. unfold end_of_input.
  pose proof (end_events t (user_hooks t sm) n' pp (h_unit (user_hooks t sm))) as Hev. pose proof (error_logged t (user_hooks t sm) n' pp 0 (h_unit (user_hooks t sm))) as Hlo.
  pose proof (error_blame t (user_hooks t sm) n' pp 0 (h_unit (user_hooks t sm))) as Hb.
  assert (Hq : forall l, Forall at_end l -> Forall quiet l) by (intros l; apply Forall_impl; intros []; cbn; auto).
  destruct (parse_token n' t (user_hooks t sm) pp 0 (h_unit (user_hooks t sm))) as [[] p'|e p'| |]; cbn [rbind] in *.
  - destruct (ps_status p') as [| |r]; auto. intros (HA & Hr & Hx). destruct Hev as (l & Hl & HF). splits; auto; [eapply accepted_decl; eauto|eauto].
  - intros Hst. destruct Hev as (l & Hl & HF). assert (l <> []) by (intros ->; cbn in *; rewrite Hl in Hlo; lia). split; [|eauto].
    destruct l as [|ev l]; [congruence|]. inversion HF as [|? ? He HF']; subst. destruct (Hb e p' eq_refl); try (econstructor; eauto; fail). rewrite Hl in H1. injection H1 as -> _. destruct He.
  - auto.
  - auto.
Qed.

(** ** The actions of a state, in terms of valid items *)
(** State [s] of the automaton is the state of the viable prefix [gamma]: it has exactly the
    items valid for it. *)
Definition state_of (b : built) (gamma : list nat) (s : nat) : Prop := s < List.length (p_states (bt_auto b)) /\ reaches (bt_grammar b) (bt_auto b) gamma s.
(** After [gamma] the token [a] can come next: some valid item has its dot before it, or before
    a class listing it. *)
Definition can_shift (b : built) (s a : nat) : Prop := exists gamma r ru d X al,
  state_of b gamma s /\ lr0 (bt_grammar b) gamma r d /\ nth_error (g_rules (bt_grammar b)) r = Some ru /\ nth_error (r_rhs ru) d = Some (X, al) /\ member (bt_grammar b) a X.
(** Rule [r] is complete in [s] and [a] is a lookahead of it. *)
Definition can_reduce (b : built) (s r a : nat) : Prop := exists gamma ru,
  state_of b gamma s /\ nth_error (g_rules (bt_grammar b)) r = Some ru /\ lr1 (bt_grammar b) gamma r (List.length (r_rhs ru)) a.
(** What the generated tables say for state [s] and token [a] *)
Definition says_shift (b : built) (s a : nat) : Prop := exists gamma X q, state_of b gamma s /\ member (bt_grammar b) a X /\ state_of b (gamma ++ [X]) q /\
  find_shift_action (bt_tables b) (state_num (bt_grammar b) (bt_comp b) s) a = LAct (state_num (bt_grammar b) (bt_comp b) q).
Definition says_reduce (b : built) (s r a : nat) : Prop :=
  find_shift_action (bt_tables b) (state_num (bt_grammar b) (bt_comp b) s) a = LAct (t_nstate (bt_tables b) + r).
Definition says_error (b : built) (s a : nat) : Prop :=
  find_shift_action (bt_tables b) (state_num (bt_grammar b) (bt_comp b) s) a = LAct (t_nstate (bt_tables b) + t_nrule (bt_tables b)).
Notation P := (ex_pipe ds b EX US).
Notation Au := (ex_aut ds b EX).
Notation W := (ex_wf ds b EX).
Notation ns := (List.length (p_states (bt_auto b))).

Lemma cover_member a X : X < List.length (g_syms g) -> a < g_nterm g -> (covers g X a <-> member g a X).
Proof.
  intros LX La. pose proof (wg_dflt_range g W) as R. unfold covers, member. assert (Ta : is_term g a) by (apply (wg_term g W); lia). destruct (kind_at g X) as [[| |ms]|] eqn:K.
  - split; [intros ->; left; auto|]. intros [[-> _]|(ms & E & _)]; [auto|discriminate].
  - split; [intros ->; left; auto|]. intros [[-> _]|(ms & E & _)]; [auto|discriminate].
  - split; [eauto|]. intros [[-> Hk]|(ms' & E & H)]; [unfold is_term in Hk; congruence|]. injection E as ->. auto.
  - split; [intros ->; left; auto|]. intros [[-> _]|(ms & E & _)]; [auto|discriminate].
Qed.
Lemma raw_shift_iff s a : s < ns -> a < g_nterm g -> (can_shift b s a <-> exists q, raw g (bt_auto b) s a (Shift q)).
Proof.
  intros Hs La. split.
  - intros (gamma & r & ru & d & X & al & [_ HR] & Hl & Hr & HX & Hm). apply HR in Hl. assert (HK : kpost g (r, d) = Some X) by (unfold kpost, grule; cbn; now rewrite (nth_error_nth _ _ _ Hr), HX).
    destruct (au_next g _ Au _ _ _ Hl HK) as (q & Hq). exists q. econstructor; eauto. apply cover_member; auto. now destruct (edge_sym g W _ Au _ _ _ Hq).
  - intros (q & HR). inversion HR as [X t0 m He Hc| |]; subst. destruct (au_edge g _ Au _ _ _ He) as (_ & [r d] & Hi & HK). destruct (states_exact g _ Au) as (S1 & _). destruct (S1 s Hs) as (gamma & Hg).
    unfold kpost in HK. cbn in HK. destruct (nth_error (r_rhs (grule g r)) d) as [[X' al]|] eqn:EX'; [|discriminate]. injection HK as ->. pose proof (au_valid g _ Au _ _ Hi) as [Lr _]. cbn in Lr.
    exists gamma, r, (grule g r), d, X, al. splits; auto; [split; auto|now apply Hg|apply nth_error_nth'; auto|]. apply cover_member; auto. now destruct (edge_sym g W _ Au _ _ _ He).
Qed.
Lemma raw_reduce_iff s r a : s < ns -> a < g_nterm g -> (can_reduce b s r a <-> raw g (bt_auto b) s a (Reduce r)).
Proof.
  intros Hs La. split.
  - intros (gamma & ru & [_ HR] & Hr & Hl). constructor; auto. unfold rlen, grule. rewrite (nth_error_nth _ _ _ Hr). apply (lalr_exact g _ Au); eauto.
  - intros HR. inversion HR as [|r' b' Hl _|]; subst. pose proof Hl as Hi. apply (lalr_exact g _ Au) in Hl as (gamma & Hg & Hl); auto. assert (Li : item (bt_auto b) s (r, rlen g r)) by (destruct Hi as (st & c & ? & ? & ? & _); exists st, c; auto).
    pose proof (au_valid g _ Au _ _ Li) as [Lr _]. exists gamma, (grule g r). splits; auto; [split; auto|apply nth_error_nth'; auto].
Qed.
Lemma path_state gamma s : path g (bt_auto b) gamma s -> state_of b gamma s.
Proof.
  intros Hp. split; [eapply path_range; eauto using ex_aut|]. intros r d. split; intros H; [eapply lr0_item; eauto using ex_aut|]. exact (item_lr0 g _ Au gamma s (r, d) Hp H).
Qed.
Lemma shift_state s a q : s < ns -> a < g_nterm g -> raw g (bt_auto b) s a (Shift q) -> find_shift_action t (state_num g (bt_comp b) s) a = LAct (state_num g (bt_comp b) q) -> says_shift b s a.
Proof.
  intros Hs La HR H. inversion HR as [X t0 m He Hc| |]; subst. destruct (path_reach g _ Au s Hs) as (gamma & Hp).
  exists gamma, X, q. splits; auto using path_state; [apply cover_member; auto; now destruct (edge_sym g W _ Au _ _ _ He)|]. apply path_state. econstructor; eauto.
Qed.

(** ** C10 *)
Definition shift_wins (pt pr : prec) : Prop := fst pr < fst pt \/ (fst pr = fst pt /\ snd pt = ARight).
Definition reduce_wins (pt pr : prec) : Prop := fst pt < fst pr \/ (fst pr = fst pt /\ snd pt = ALeft).
Definition undecided (pt pr : prec) : Prop := fst pr = fst pt /\ snd pt = ANone.
Lemma tok_prec a : 0 < a < g_nterm g -> sy_prec (gsym g a) = assoc_of ds (tok_name b a).
Proof.
  intros La. destruct (ex_decl ds b EX) as (opts & DE). rewrite (name_eq ds b EX US) by lia. pose proof (wg_dflt_range g W) as R. assert (La' : a < List.length (g_syms g)) by lia.
  unfold gname. destruct (nth_error (g_syms g) a) as [sy|] eqn:Ea; [|apply nth_error_None in Ea; lia]. unfold gsym. rewrite (nth_error_nth _ _ _ Ea).
  destruct (string_dec (sy_name sy) "") as [E0|Hne]; [|now destruct (de_sym _ _ _ DE _ _ Ea Hne)].
  destruct (de_anon _ _ _ DE _ _ Ea E0) as (_ & _ & (ms & Hk) & _). assert (kind_at g a = Some KTerm) by (apply (wg_term g W); lia). unfold kind_at in H. rewrite Ea in H. cbn in H. congruence.
Qed.
Lemma tok_fb a : 0 < a < g_nterm g -> option_map (gname g) (sy_fb (gsym g a)) = fallback_of ds (tok_name b a).
Proof.
  intros La. destruct (ex_decl ds b EX) as (opts & DE). rewrite (name_eq ds b EX US) by lia. pose proof (wg_dflt_range g W) as R. assert (La' : a < List.length (g_syms g)) by lia.
  unfold gname at 2. destruct (nth_error (g_syms g) a) as [sy|] eqn:Ea; [|apply nth_error_None in Ea; lia]. unfold gsym. rewrite (nth_error_nth _ _ _ Ea).
  destruct (string_dec (sy_name sy) "") as [E0|Hne]; [|now destruct (de_sym _ _ _ DE _ _ Ea Hne) as (_ & ? & _)].
  destruct (de_anon _ _ _ DE _ _ Ea E0) as (_ & _ & (ms & Hk) & _). assert (kind_at g a = Some KTerm) by (apply (wg_term g W); lia). unfold kind_at in H. rewrite Ea in H. cbn in H. congruence.
Qed.
Lemma no_wild : wildcard_of ds = None -> g_wild g = None.
Proof. intros H. destruct (ex_decl ds b EX) as (opts & DE). pose proof (de_wild _ _ _ DE) as D. rewrite H in D. destruct (g_wild g); [destruct D|auto]. Qed.

Lemma error_says s a : s < ns -> 0 < a < g_nterm g -> In (mkAct a Error) (acts (bt_acts b) s) -> wildcard_of ds = None -> fallback_of ds (tok_name b a) = None -> says_error b s a.
Proof.
  intros Hs La Hin Hw Hf. apply no_wild in Hw. destruct (error_src _ _ _ _ _ P s a Hs Hin) as ((q & Rq) & (r & Rr & l & c & Hp & _) & r' & Hr').
  assert (Fa : sy_fb (gsym g a) = None) by (pose proof (tok_fb a La) as H; rewrite Hf in H; destruct (sy_fb (gsym g a)); [discriminate|auto]).
  assert (He : eff (acts (bt_comp b) s) a = Some Error).
  { destruct (pp_comp _ _ _ _ _ P s Hs) as [[dr|] C]; [apply (co_error _ _ _ _ C _ Hin); discriminate|].
    exfalso. destruct (co_none _ _ _ _ C eq_refl) as [_ [(w & t0 & Hw' & _)|Hall]]; [congruence|].
    specialize (Hall a r' Hr' Fa). pose proof (settled_raw g _ _ s a _ (pp_settled _ _ _ _ _ P s Hs) Hr' I) as R1. inversion R1 as [|? ? Hl _|]; subst.
    unfold lhs_start in Hall. apply Nat.eqb_eq in Hall. rewrite (start_look _ _ _ _ _ P s r' _ a Hl Hall) in La. lia. }
  unfold says_error. rewrite (t_ns _ _ _ _ _ P), (t_nr _ _ _ _ _ P). erewrite (shift_lookup _ _ _ _ _ P s a Error); [reflexivity|auto|left; lia|now constructor].
Qed.

Theorem shift_reduce s a r : s < ns -> 0 < a < g_nterm g -> can_shift b s a -> can_reduce b s r a -> (forall r', can_reduce b s r' a -> r' = r) ->
  exists pt pr, assoc_of ds (tok_name b a) = Some pt /\ r_prec (grule g r) = Some pr /\
    (shift_wins pt pr -> says_shift b s a) /\
    (reduce_wins pt pr -> wildcard_of ds = None -> says_reduce b s r a) /\
    (undecided pt pr -> wildcard_of ds = None -> fallback_of ds (tok_name b a) = None -> says_error b s a).
Proof.
  intros Hs La HS HR HU. apply raw_shift_iff in HS as (q & HS); try lia. apply raw_reduce_iff in HR; try lia.
  destruct (shift_reduce_pair g W _ _ s (ex_settled ds b EX US s Hs) a q r HS HR) as (px & py & Hx & Hy & HG); [intros r' H'; apply HU, raw_reduce_iff; auto; lia|].
  exists px, py. rewrite <- tok_prec by auto. splits; auto.
  - intros HW. assert (HC : precedence_cmp px py = Gt).
    { unfold precedence_cmp. destruct HW as [HW|[HW HA]]; [|rewrite HW, Nat.compare_refl, HA; auto]. destruct (Nat.compare_spec (fst px) (fst py)); auto; lia. }
    rewrite HC in HG. apply (shift_state s a q); auto; try lia. rewrite (decided_lookup _ _ _ _ _ P s a (Shift q)); [reflexivity|auto|left; lia| |right; eauto].
    unfold decided; splits; [apply group_acts; rewrite HG; now left|exact I|]. intros HE. apply group_acts in HE. rewrite HG in HE. destruct HE as [E|[E|[]]]; discriminate.
  - intros HW Hw. assert (HC : precedence_cmp px py = Lt).
    { unfold precedence_cmp. destruct HW as [HW|[HW HA]]; [|rewrite HW, Nat.compare_refl, HA; auto]. destruct (Nat.compare_spec (fst px) (fst py)); auto; lia. }
    rewrite HC in HG. unfold says_reduce. rewrite (t_ns _ _ _ _ _ P), (decided_lookup _ _ _ _ _ P s a (Reduce r)); [reflexivity|auto|left; lia| |left; now apply no_wild].
    unfold decided; splits; [apply group_acts; rewrite HG; right; now left|exact I|]. intros HE. apply group_acts in HE. rewrite HG in HE. destruct HE as [E|[E|[]]]; discriminate.
  - intros [HE HA] Hw Hf. assert (HC : precedence_cmp px py = Eq) by (unfold precedence_cmp; now rewrite HE, Nat.compare_refl, HA). rewrite HC in HG. apply error_says; auto. apply group_acts. rewrite HG. now left.
Qed.

(** ** C11 *)
Theorem reduce_reduce s a r1 r2 : s < ns -> 0 < a < g_nterm g -> r1 < r2 -> can_reduce b s r1 a -> can_reduce b s r2 a -> ~ can_shift b s a -> (forall r', can_reduce b s r' a -> r' = r1 \/ r' = r2) ->
  exists p1 p2, r_prec (grule g r1) = Some p1 /\ r_prec (grule g r2) = Some p2 /\
    (fst p1 = fst p2 -> snd p1 <> ANone) /\ (wildcard_of ds = None -> (fst p2 < fst p1 -> says_reduce b s r1 a) /\ (fst p1 < fst p2 -> says_reduce b s r2 a)).
Proof.
  intros Hs La L12 H1 H2 HN HU. apply raw_reduce_iff in H1, H2; try lia.
  assert (HA : forall d, raw g (bt_auto b) s a d -> d = Reduce r1 \/ d = Reduce r2).
  { intros d Hd. inversion Hd as [X q m He Hc|r' b' Hl Lb|]; subst.
    - exfalso. apply HN, raw_shift_iff; auto; [lia|eauto].
    - destruct (HU r') as [->| ->]; auto. apply raw_reduce_iff; auto; lia.
    - exfalso. pose proof (proj1 (wg_start g W)) as K. apply (wg_nonterm g W) in K. lia. }
  destruct (reduce_reduce_pair g W _ _ s (ex_settled ds b EX US s Hs) a r1 r2 L12 H1 H2 HA) as (p1 & p2 & E1 & E2 & HG). exists p1, p2. splits; auto.
  - intros E HN'. unfold precedence_cmp in HG. now rewrite E, Nat.compare_refl, HN' in HG.
  - intros Hw. split; intros HL.
    + assert (HC : precedence_cmp p1 p2 = Gt) by (unfold precedence_cmp; destruct (Nat.compare_spec (fst p1) (fst p2)); auto; lia). rewrite HC in HG.
      unfold says_reduce. rewrite (t_ns _ _ _ _ _ P), (decided_lookup _ _ _ _ _ P s a (Reduce r1)); [reflexivity|auto|left; lia| |left; now apply no_wild].
      unfold decided; splits; [apply group_acts; rewrite HG; now left|exact I|]. intros HE. apply group_acts in HE. rewrite HG in HE. destruct HE as [E|[E|[]]]; discriminate.
    + assert (HC : precedence_cmp p1 p2 = Lt) by (unfold precedence_cmp; destruct (Nat.compare_spec (fst p1) (fst p2)); auto; lia). rewrite HC in HG.
      unfold says_reduce. rewrite (t_ns _ _ _ _ _ P), (decided_lookup _ _ _ _ _ P s a (Reduce r2)); [reflexivity|auto|left; lia| |left; now apply no_wild].
      unfold decided; splits; [apply group_acts; rewrite HG; right; now left|exact I|]. intros HE. apply group_acts in HE. rewrite HG in HE. destruct HE as [E|[E|[]]]; discriminate.
Qed.

End Build.
