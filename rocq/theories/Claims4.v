(** Guarantees about failure (C22, C29), the expected tokens (C24) and what handlers are given
    (C25). *)
From Verif Require Import Base Syntax BaseFacts FrontEnd First States Actions Tables Runtime User Spec WfGrammar FirstFacts ClosureFacts AutoFacts LalrFacts ActFacts GroupFacts CompFacts TabFacts PackFacts LookFacts PipeFacts RunFacts FrontFacts
  SoundFacts SafeFacts BuildFacts AbsFacts HaltFacts TermFacts CompleteFacts CleanFacts RefFacts DeclSpec DeclFacts GramFacts LangFacts TypeFacts MeanSpec MeanFacts TypeDecl RunMore Main Claims Claims2 DeclMore Claims3.
Open Scope string_scope. Open Scope nat_scope. Open Scope list_scope.

(** ** Errors are neither swallowed nor invented (C29) *)
Section Watch.
Context {V X E : Type}.
(** User code that also notes every error it returns. *)
Definition note (x : X * list E) (r : X * (V + E)) : (X * list E) * (V + E) :=
  match snd r with inl v => ((fst r, snd x), inl v) | inr e => ((fst r, e :: snd x), inr e) end.
Definition watch (sm : sem V X E) : sem V (X * list E) E := {|
  v_unit := v_unit sm; v_none := v_none sm; v_some := v_some sm;
  u_block c args x := note x (u_block sm c args (fst x));
  u_syntax k exp x := note x (u_syntax sm k exp (fst x));
  u_fail x := let '(x', e) := u_fail sm (fst x) in ((x', e :: snd x), e);
  u_overflow k x := let '(x', e) := u_overflow sm k (fst x) in ((x', e :: snd x), e) |}.
Context (t : tables) (sm : sem V X E).
Notation h := (user_hooks t sm). Notation h' := (user_hooks t (watch sm)).
Notation prs' := (parser (minor V) (X * list E) V).
Definition quietly (p : prs') : Prop := snd (ps_extra p) = [].
Notation noted := (rpost quietly (fun e (p : prs') => snd (ps_extra p) = [e])).

Lemma reduce_note r vals x y : h_reduce h' r vals x = Some y -> snd x = [] ->
  match snd y with inl _ => snd (fst y) = [] | inr e => snd (fst y) = [e] end.
Proof.
  cbn [h_reduce user_hooks]. unfold rule_reduce. destruct (match_args _ _) as [args|]; [|discriminate]. unfold run_code. destruct (rr_code _) as [|c| | |]; cbn [v_unit v_none v_some watch u_block].
  - intros H Hx. injection H as <-. exact Hx.
  - unfold note. destruct (u_block sm c args (fst x)) as [x' [v|e]]; cbn [fst snd]; intros H Hx; injection H as <-; cbn; congruence.
  - intros H Hx. injection H as <-. exact Hx.
  - destruct args as [|? [|? ?]]; try discriminate. intros H Hx. injection H as <-. exact Hx.
  - destruct args as [|? [|? ?]]; try discriminate. intros H Hx. injection H as <-. exact Hx.
Qed.
Lemma syntax_note a m exp x : snd x = [] -> match snd (h_syntax h' a m exp x) with inl _ => snd (fst (h_syntax h' a m exp x)) = [] | inr e => snd (fst (h_syntax h' a m exp x)) = [e] end.
Proof. intros Hx. cbn [h_syntax user_hooks watch u_syntax]. unfold note. cbn [v_unit]. destruct (u_syntax sm _ _ _) as [x' [v|e]]; cbn; congruence. Qed.
Lemma shift_note p q a m : quietly p -> noted (yy_shift t h' p q a m).
Proof.
  intros Hq. unfold yy_shift. destruct (_ && _); [|exact Hq]. cbn [h_overflow user_hooks watch u_overflow]. destruct (u_overflow sm _ _) as [x e]. cbn. unfold quietly in Hq. now rewrite Hq.
Qed.
Lemma yy_reduce_note p r : quietly p -> noted (yy_reduce t h' p r).
Proof.
  intros Hq. unfold yy_reduce. destruct (nth_error (t_rules t) r) as [rr|]; [|exact I]. destruct (pop_n _ _ _) as [[vals rest]|]; [|exact I].
  destruct (h_reduce h' r vals (ps_extra p)) as [[x [v|e]]|] eqn:Eh; [| |exact I]; pose proof (reduce_note _ _ _ _ Eh Hq) as HN; cbn [fst snd] in HN; [|exact HN].
  destruct rest as [|top rest]; [exact I|]. destruct (find_reduce_action t (e_state top) (rr_lhs rr)); try exact I. destruct (a <? t_nstate t); [now apply shift_note|].
  destruct (_ =? _); [|exact I]. destruct (h_accept h' v); [|exact I]. exact HN.
Qed.
Lemma recover_note n : forall st0 a m p, quietly p -> noted (recover t h' n st0 a m p).
Proof.
  induction n as [|n IH]; intros st0 a m p Hq; cbn [recover]; [exact I|]. destruct (ps_stack p) as [|top rest]; [exact Hq|]. destruct (e_major top =? t_err t); [exact Hq|].
  destruct (find_reduce_action t (e_state top) (t_err t)); try exact I. destruct (a0 <? t_nstate t); [|now apply IH].
  pose proof (syntax_note a m (expected_tokens t st0) (ps_extra p) Hq) as HN. destruct (h_syntax _ _ _ _ _) as [x [v|e]]; cbn [fst snd] in HN; [|exact HN].
  eapply rpost_bind; [now apply shift_note|]. intros _ p' H'. exact H'.
Qed.
Lemma failed_note {A} p : quietly p -> noted (@yy_parse_failed _ _ _ _ A h' p).
Proof. intros Hq. unfold yy_parse_failed. cbn [h_fail user_hooks watch u_fail]. destruct (u_fail sm _) as [x e]. cbn. unfold quietly in Hq. now rewrite Hq. Qed.
Lemma syntax_error_note p st0 a m : quietly p -> noted (syntax_error t h' p st0 a m).
Proof.
  intros Hq. unfold syntax_error. destruct (a =? 0); [now apply failed_note|]. destruct (negb (t_err t =? 0)).
  - eapply rpost_bind; [now apply recover_note|]. intros _ p' H'. cbn beta in *. destruct (ps_stack p'); [now apply failed_note|exact H'].
  - destruct (ps_count p =? 0); [|exact Hq]. pose proof (syntax_note a m (expected_tokens t st0) (ps_extra p) Hq) as HN. destruct (h_syntax _ _ _ _ _) as [x [v|e]]; exact HN.
Qed.
Lemma parse_token_note n p a m : quietly p -> noted (parse_token n t h' p a m).
Proof.
  intros Hq. assert (H2 : forall p, quietly p -> noted (parse_token_2 n t h' p a m)).
  { clear p Hq. induction n as [|k IH]; intros p Hq; cbn [parse_token_2]; [exact I|]. destruct (ps_status p); try exact Hq. destruct (ps_stack p) as [|top rest]; [exact I|].
    destruct (find_shift_action t (e_state top) a); try exact I. destruct (a0 <? t_nstate t).
    - destruct (a =? 0); [exact I|]. eapply rpost_bind; [now apply shift_note|]. intros _ p' H'. exact H'.
    - destruct (a0 <? _); [eapply rpost_bind; [now apply yy_reduce_note|]; intros; now apply IH|]. destruct (a0 =? _); [now apply syntax_error_note|exact I]. }
  unfold parse_token. specialize (H2 p Hq). destruct (ps_status p); try exact I. destruct (parse_token_2 n t h' p a m); exact H2.
Qed.
Lemma parse_all_note n : forall ts p, quietly p -> noted (parse_all n t h' p ts).
Proof.
  induction ts as [|[a m] ts IH]; intros p Hq; cbn [parse_all]; [exact Hq|]. eapply rpost_bind; [now apply parse_token_note|]. intros; now apply IH.
Qed.

(** Noting changes nothing. *)
Definition unwatch_p (p : prs') : parser (minor V) X V := mkParser (ps_count p) (ps_stack p) (fst (ps_extra p)) (ps_status p) (ps_log p).
Definition unwatch {A} (r : res (minor V) (X * list E) E V A) : res (minor V) X E V A :=
  match r with ROk a p => ROk a (unwatch_p p) | RErr e p => RErr e (unwatch_p p) | RPanic => RPanic | RFuel => RFuel end.
Lemma bind_unwatch {A B} (r : res _ _ E _ A) (f : A -> prs' -> res _ _ E _ B) (f' : A -> parser (minor V) X V -> res _ _ E _ B) r' :
  unwatch r = r' -> (forall a p, unwatch (f a p) = f' a (unwatch_p p)) -> unwatch (rbind r f) = rbind r' f'.
Proof. intros <- H. destruct r; cbn; auto. Qed.
Lemma shift_unwatch p q a m : unwatch (yy_shift t h' p q a m) = yy_shift t h (unwatch_p p) q a m.
Proof.
  unfold yy_shift. change (ps_stack (unwatch_p p)) with (ps_stack p). destruct (_ && _); [|reflexivity].
  cbn [h_overflow user_hooks watch u_overflow]. change (ps_extra (unwatch_p p)) with (fst (ps_extra p)). destruct (u_overflow sm _ _). reflexivity.
Qed.
Lemma hreduce_unwatch r vals x : h_reduce h r vals (fst x) = option_map (fun y => (fst (fst y), snd y)) (h_reduce h' r vals x).
Proof.
  cbn [h_reduce user_hooks]. unfold rule_reduce. destruct (match_args _ _) as [args|]; [|reflexivity]. unfold run_code. destruct (rr_code _) as [|c| | |]; cbn [watch v_unit v_none v_some u_block].
  - reflexivity.
  - unfold note. destruct (u_block sm c args (fst x)) as [x' [v|e]]; reflexivity.
  - reflexivity.
  - destruct args as [|? [|? ?]]; reflexivity.
  - destruct args as [|? [|? ?]]; reflexivity.
Qed.
Lemma hsyntax_unwatch a m exp x : h_syntax h a m exp (fst x) = (fst (fst (h_syntax h' a m exp x)), snd (h_syntax h' a m exp x)).
Proof. cbn [h_syntax user_hooks watch u_syntax v_unit]. unfold note. destruct (u_syntax sm _ _ (fst x)) as [x' [v|e]]; reflexivity. Qed.
Lemma yy_reduce_unwatch p r : unwatch (yy_reduce t h' p r) = yy_reduce t h (unwatch_p p) r.
Proof.
  unfold yy_reduce. destruct (nth_error (t_rules t) r) as [rr|]; [|reflexivity]. change (ps_stack (unwatch_p p)) with (ps_stack p). destruct (pop_n _ _ _) as [[vals rest]|]; [|reflexivity].
  change (ps_extra (unwatch_p p)) with (fst (ps_extra p)). rewrite hreduce_unwatch. destruct (h_reduce h' r vals (ps_extra p)) as [[x [v|e]]|]; cbn [option_map fst snd]; [|reflexivity|reflexivity].
  destruct rest as [|top rest]; [reflexivity|]. destruct (find_reduce_action t (e_state top) (rr_lhs rr)); try reflexivity. destruct (a <? t_nstate t); [apply shift_unwatch|].
  destruct (_ =? _); [|reflexivity]. change (h_accept h v) with (h_accept h' v). destruct (h_accept h' v); reflexivity.
Qed.
Lemma recover_unwatch n : forall st0 a m p, unwatch (recover t h' n st0 a m p) = recover t h n st0 a m (unwatch_p p).
Proof.
  induction n as [|n IH]; intros st0 a m p; cbn [recover]; [reflexivity|]. change (ps_stack (unwatch_p p)) with (ps_stack p). destruct (ps_stack p) as [|top rest]; [reflexivity|].
  destruct (e_major top =? t_err t); [reflexivity|]. destruct (find_reduce_action t (e_state top) (t_err t)); try reflexivity. destruct (a0 <? t_nstate t).
  - change (ps_extra (unwatch_p p)) with (fst (ps_extra p)). rewrite hsyntax_unwatch. destruct (h_syntax h' _ _ _ _) as [x [v|e]]; cbn [fst snd]; [|reflexivity].
    eapply bind_unwatch; [apply shift_unwatch|]. reflexivity.
  - rewrite IH. reflexivity.
Qed.
Lemma failed_unwatch {A} p : unwatch (@yy_parse_failed _ _ _ _ A h' p) = yy_parse_failed h (unwatch_p p).
Proof. unfold yy_parse_failed. cbn [h_fail user_hooks watch u_fail]. change (ps_extra (unwatch_p p)) with (fst (ps_extra p)). destruct (u_fail sm _). reflexivity. Qed.
Lemma syntax_error_unwatch p st0 a m : unwatch (syntax_error t h' p st0 a m) = syntax_error t h (unwatch_p p) st0 a m.
Proof.
  unfold syntax_error. destruct (a =? 0); [apply failed_unwatch|]. destruct (negb (t_err t =? 0)).
  - eapply bind_unwatch; [apply recover_unwatch|]. intros _ p'. change (ps_stack (unwatch_p p')) with (ps_stack p'). destruct (ps_stack p'); [apply failed_unwatch|reflexivity].
  - change (ps_count (unwatch_p p)) with (ps_count p). destruct (ps_count p =? 0); [|reflexivity]. change (ps_extra (unwatch_p p)) with (fst (ps_extra p)). rewrite hsyntax_unwatch. destruct (h_syntax h' _ _ _ _) as [x [v|e]]; reflexivity.
Qed.
Lemma parse_token_unwatch n p a m : unwatch (parse_token n t h' p a m) = parse_token n t h (unwatch_p p) a m.
Proof.
  assert (H2 : forall p, unwatch (parse_token_2 n t h' p a m) = parse_token_2 n t h (unwatch_p p) a m).
  { clear p. induction n as [|k IH]; intros p; cbn [parse_token_2]; [reflexivity|]. change (ps_status (unwatch_p p)) with (ps_status p). destruct (ps_status p); try reflexivity.
    change (ps_stack (unwatch_p p)) with (ps_stack p). destruct (ps_stack p) as [|top rest]; [reflexivity|]. destruct (find_shift_action t (e_state top) a); try reflexivity. destruct (a0 <? t_nstate t).
    - destruct (a =? 0); [reflexivity|]. eapply bind_unwatch; [apply shift_unwatch|]. reflexivity.
    - destruct (a0 <? _); [eapply bind_unwatch; [apply yy_reduce_unwatch|]; intros; apply IH|]. destruct (a0 =? _); [apply syntax_error_unwatch|reflexivity]. }
  unfold parse_token. change (ps_status (unwatch_p p)) with (ps_status p). destruct (ps_status p); try reflexivity. rewrite <- H2. destruct (parse_token_2 n t h' p a m); reflexivity.
Qed.
Lemma parse_all_unwatch n : forall ts p, unwatch (parse_all n t h' p ts) = parse_all n t h (unwatch_p p) ts.
Proof.
  induction ts as [|[a m] ts IH]; intros p; cbn [parse_all]; [reflexivity|]. eapply bind_unwatch; [apply parse_token_unwatch|]. intros; apply IH.
Qed.

(** Every error that user code returns ends the call and is what the call returns, and no user
    code runs after it: the errors noted during a whole use of the parser are none if it
    succeeds, and just the one returned if it does not. *)
Theorem errors_kept n x ks :
  match api_run n t (watch sm) (x, []) ks, api_run n t sm x ks with
  | ROk (v', (x', l)) p', ROk (v, x1) p => v' = v /\ x' = x1 /\ l = [] /\ unwatch_p p' = p
  | RErr e' p', RErr e p => e' = e /\ snd (ps_extra p') = [e] /\ unwatch_p p' = p
  | RPanic, RPanic | RFuel, RFuel => True
  | _, _ => False
  end.
Proof.
  unfold api_run, run. change (map (token_value t (watch sm)) ks) with (map (token_value t sm) ks). set (ts := map (token_value t sm) ks).
  pose proof (parse_all_unwatch n ts (new_parser h' (x, []))) as HU. change (unwatch_p (new_parser h' (x, []))) with (new_parser h x) in HU. rewrite <- HU.
  pose proof (parse_all_note n ts (new_parser h' (x, [])) eq_refl) as HN. destruct (parse_all n t h' (new_parser h' (x, [])) ts) as [[] p1|e p1| |]; cbn [rbind unwatch rpost] in *; auto.
  unfold end_of_input. change (h_unit h) with (h_unit h'). pose proof (parse_token_unwatch n p1 0 (h_unit h')) as HT. rewrite <- HT. pose proof (parse_token_note n p1 0 (h_unit h') HN) as HN'.
  destruct (parse_token n t h' p1 0 (h_unit h')) as [[] p2|e p2| |]; cbn [rbind unwatch rpost] in *; auto.
  change (ps_status (unwatch_p p2)) with (ps_status p2). destruct (ps_status p2); auto. unfold quietly in HN'. destruct (ps_extra p2) as [x2 l] eqn:Ex. cbn [snd] in HN'. splits; auto. unfold unwatch_p. now rewrite Ex.
Qed.
End Watch.

(** ** A failed parser stays failed (C22) *)
Theorem failed_stays {V X E : Type} (t : tables) (sm : sem V X E) n p k e p' : api_parse n t sm p k = RErr e p' ->
  ps_status p' = Failed /\ (forall n' k', api_parse n' t sm p' k' = RPanic) /\ (forall n', end_of_input n' t (user_hooks t sm) p' = RPanic).
Proof.
  unfold api_parse. destruct (token_value t sm k) as [a m]. intros H. destruct (error_is_final t (user_hooks t sm) n p a m e p' H) as (H1 & H2 & H3). splits; auto.
  intros n' k'. destruct (token_value t sm k') as [a' m']. apply H2.
Qed.

(** ** What handlers are given (C25) *)
Section Given.
Context {V X E : Type} (t : tables).
Hypothesis Herr : t_err t = 0 \/ t_nterm t <= t_err t.
Hypothesis Hlhs : forall rr, In rr (t_rules t) -> t_nterm t <= rr_lhs rr.
(** Two programs whose handlers agree on the token [k] (and on the absence of a token for the
    overflow handler) *)
Record agree_on (k : token V) (s1 s2 : sem V X E) : Prop := {
  ag_unit : v_unit s1 = v_unit s2; ag_none : v_none s1 = v_none s2; ag_some : forall v, v_some s1 v = v_some s2 v;
  ag_block : forall c l x, u_block s1 c l x = u_block s2 c l x; ag_fail : forall x, u_fail s1 x = u_fail s2 x;
  ag_syntax : forall l x, u_syntax s1 (Some k) l x = u_syntax s2 (Some k) l x;
  ag_over : forall x, u_overflow s1 (Some k) x = u_overflow s2 (Some k) x;
  ag_over_none : forall x, u_overflow s1 None x = u_overflow s2 None x }.

Lemma build_value (s : sem V X E) k : token_wf t k -> token_build t (fst (token_value t s k)) (snd (token_value t s k)) = Some k.
Proof.
  intros [[H0 H1] HT]. unfold token_build, token_value. cbn [fst snd]. destruct k as [i v]. cbn [fst snd] in *.
  apply Nat.ltb_lt in H0, H1. rewrite H0, H1. cbn [andb]. destruct (typed t i).
  - rewrite Nat.eqb_refl. destruct v; auto. exfalso. now apply (proj1 HT eq_refl).
  - destruct v; auto. exfalso. assert (false = true) by (apply HT; discriminate). discriminate.
Qed.
Lemma build_none i (m : minor V) : t_nterm t <= i -> token_build t i m = None.
Proof. intros H. unfold token_build. replace (i <? t_nterm t) with false by (symmetry; apply Nat.ltb_ge; lia). now rewrite andb_false_r. Qed.

Variable (k : token V) (s1 s2 : sem V X E).
Hypothesis AG : agree_on k s1 s2.
Hypothesis Hk : token_wf t k.
Notation h1 := (user_hooks t s1). Notation h2 := (user_hooks t s2).
Lemma reduce_agree r vals x : h_reduce h1 r vals x = h_reduce h2 r vals x.
Proof.
  cbn [h_reduce user_hooks]. unfold rule_reduce. destruct (match_args _ _) as [args|]; auto. unfold run_code. destruct (rr_code _) as [|c| | |].
  - now rewrite (ag_unit _ _ _ AG).
  - now rewrite (ag_block _ _ _ AG).
  - now rewrite (ag_none _ _ _ AG).
  - destruct args as [|? [|? ?]]; auto. now rewrite (ag_some _ _ _ AG).
  - reflexivity.
Qed.
Lemma accept_agree m : h_accept h1 m = h_accept h2 m.
Proof. cbn [h_accept user_hooks]. now rewrite (ag_unit _ _ _ AG). Qed.
Notation a := (fst (token_value t s1 k)). Notation m := (snd (token_value t s1 k)).
Lemma syntax_agree exp x : h_syntax h1 a m exp x = h_syntax h2 a m exp x.
Proof. cbn [h_syntax user_hooks]. rewrite build_value by auto. rewrite (ag_syntax _ _ _ AG), (ag_unit _ _ _ AG). reflexivity. Qed.
Lemma shift_agree p q i v : (i = a /\ v = m) \/ t_nterm t <= i -> yy_shift t h1 p q i v = yy_shift t h2 p q i v.
Proof.
  intros Hi. unfold yy_shift. destruct (_ && _); auto. cbn [h_overflow user_hooks]. destruct Hi as [[-> ->]|Hi].
  - rewrite build_value by auto. now rewrite (ag_over _ _ _ AG).
  - rewrite build_none by auto. now rewrite (ag_over_none _ _ _ AG).
Qed.
Lemma yy_reduce_agree p r : yy_reduce t h1 p r = yy_reduce t h2 p r.
Proof.
  unfold yy_reduce. destruct (nth_error (t_rules t) r) as [rr|] eqn:Er; auto. destruct (pop_n _ _ _) as [[vals rest]|]; auto. rewrite reduce_agree.
  destruct (h_reduce h2 r vals (ps_extra p)) as [[x [v|e]]|]; auto. destruct rest as [|top rest]; auto. destruct (find_reduce_action t (e_state top) (rr_lhs rr)) as [ac| |]; auto.
  destruct (ac <? t_nstate t); [|now rewrite accept_agree]. apply shift_agree. right. apply Hlhs. eapply nth_error_In; eauto.
Qed.
Lemma recover_agree n : t_err t <> 0 -> forall st0 p, recover t h1 n st0 a m p = recover t h2 n st0 a m p.
Proof.
  intros Hne. induction n as [|n IH]; intros st0 p; cbn [recover]; auto. destruct (ps_stack p) as [|top rest]; auto. destruct (e_major top =? t_err t); auto.
  destruct (find_reduce_action t (e_state top) (t_err t)) as [ac| |]; auto. destruct (ac <? t_nstate t); [|apply IH]. rewrite syntax_agree. destruct (h_syntax h2 a m _ _) as [x [v|e]]; auto.
  rewrite shift_agree; [reflexivity|]. right. destruct Herr; [contradiction|auto].
Qed.
Lemma syntax_error_agree p st0 : syntax_error t h1 p st0 a m = syntax_error t h2 p st0 a m.
Proof.
  assert (HF : forall A p, @yy_parse_failed _ _ _ _ A h1 p = yy_parse_failed h2 p) by (intros; unfold yy_parse_failed; cbn [h_fail user_hooks]; now rewrite (ag_fail _ _ _ AG)).
  unfold syntax_error. destruct (a =? 0); [apply HF|]. destruct (t_err t =? 0) eqn:E0; cbn [negb].
  - destruct (ps_count p =? 0); auto. now rewrite syntax_agree.
  - apply Nat.eqb_neq in E0. rewrite recover_agree by auto. destruct (recover t h2 _ st0 a m p) as [[] p1|e p1| |]; cbn [rbind]; auto. now rewrite HF.
Qed.
(** During parse(k) the handlers are called with that token, the overflow handler possibly with
    none: the behaviour does not depend on what they do with any other token. *)
Theorem given_token n p : api_parse n t s1 p k = api_parse n t s2 p k.
Proof.
  unfold api_parse. assert (EV : token_value t s2 k = token_value t s1 k) by (unfold token_value; now rewrite (ag_unit _ _ _ AG)). rewrite EV.
  rewrite (surjective_pairing (token_value t s1 k)). 
  assert (H2 : forall n p, parse_token_2 n t h1 p a m = parse_token_2 n t h2 p a m).
  { clear n p. induction n as [|n IH]; intros p; cbn [parse_token_2]; auto. destruct (ps_status p); auto. destruct (ps_stack p) as [|top rest]; auto.
    destruct (find_shift_action t (e_state top) a) as [ac| |]; auto. destruct (ac <? t_nstate t).
    - destruct (a =? 0); auto. rewrite shift_agree by auto. reflexivity.
    - destruct (ac <? _); [rewrite yy_reduce_agree; destruct (yy_reduce t h2 p _); cbn [rbind]; auto|]. destruct (ac =? _); auto. apply syntax_error_agree. }
  unfold parse_token. destruct (ps_status p); auto. now rewrite H2.
Qed.
End Given.

(** A token that a call shifts is one the list of expected tokens had. *)
Theorem shifted_expected {V X E : Type} (t : tables) (sm : sem V X E) n p k p' top rest l : token_wf t k -> ps_stack p = top :: rest ->
  api_parse n t sm p k = ROk tt p' -> ps_log p' = EvShift (fst k) :: l -> In (fst k) (expected_tokens t (e_state top)).
Proof.
  intros [Hk _] Hst. unfold api_parse, token_value, parse_token. destruct (ps_status p) eqn:Es; try discriminate. destruct n as [|n]; cbn [parse_token_2]; [discriminate|]. rewrite Es, Hst.
  unfold expected_tokens. rewrite filter_In, in_seq. intros H HL. split; [lia|]. destruct (find_shift_action t (e_state top) (fst k)) as [ac| |]; try discriminate. apply Nat.ltb_lt.
  destruct (Nat.lt_ge_cases ac (t_nstate t + t_nrule t)) as [L|L]; auto. exfalso.
  replace (ac <? t_nstate t) with false in H by (symmetry; apply Nat.ltb_ge; lia). replace (ac <? t_nstate t + t_nrule t) with false in H by (symmetry; apply Nat.ltb_ge; lia).
  destruct (ac =? t_nstate t + t_nrule t); [|discriminate].
  assert (HD : forall m, match syntax_error t (user_hooks t sm) p (e_state top) (fst k) m with ROk _ p1 => exists l', ps_log p1 = EvDrop (fst k) :: l' | _ => True end).
  { intros m. unfold syntax_error, yy_parse_failed. destruct (fst k =? 0); [destruct (h_fail _ _); exact I|]. destruct (negb _).
    - destruct (recover _ _ _ _ _ _ _) as [[] p1|e p1| |]; cbn [rbind]; try exact I. destruct (ps_stack p1); [destruct (h_fail _ _); exact I|]. cbn. eauto.
    - destruct (ps_count p =? 0); [|cbn; eauto]. destruct (h_syntax _ _ _ _ _) as [x [v|e]]; [cbn; eauto|exact I]. }
  match type of H with match ?s with _ => _ end = _ => match s with syntax_error _ _ _ _ _ ?m => specialize (HD m) end; destruct s as [[] p1|e p1| |]; try discriminate end.
  injection H as <-. destruct HD as (l' & HD). rewrite HD in HL. discriminate.
Qed.

Section Build.
Context (ds : list decl) (b : built).
Notation g := (bt_grammar b). Notation t := (bt_tables b).
Hypothesis EX : expands ds b.
Hypothesis US : usable ds b.
Notation P := (ex_pipe ds b EX US).
Notation Au := (ex_aut ds b EX).
Notation W := (ex_wf ds b EX).
Notation ns := (List.length (p_states (bt_auto b))).
Notation num := (state_num g (bt_comp b)).

Lemma err_high : t_err t = 0 \/ t_nterm t <= t_err t.
Proof.
  rewrite (t_er _ _ _ _ _ P), (nterm_eq ds b EX US). destruct (1 <? _); auto. right. apply (wg_nonterm g W). apply (wg_error g W).
Qed.
Lemma lhs_high rr : In rr (t_rules t) -> t_nterm t <= rr_lhs rr.
Proof.
  intros Hin. apply In_nth_error in Hin as (r & Hr). assert (Lr : r < List.length (t_rules t)) by (apply nth_error_Some; congruence).
  assert (Lr' : r < List.length (g_rules g)).
  { destruct (pp_gen _ _ _ _ _ P) as (k & m & sy & dt & G & _). pose proof (gn_rules _ _ _ _ _ _ _ G) as HR. apply (gmap_nth (translate_code g dt) dummy_rule dummy_rt) in HR as (L & _). cbn in L. lia. }
  destruct (rule_entry _ _ _ _ _ P r Lr') as (rr' & Hrr & HL & _). rewrite Hr in Hrr. injection Hrr as <-. rewrite HL, (nterm_eq ds b EX US).
  apply (wg_nonterm g W). unfold grule. apply (wg_rule g W r _ (nth_error_nth' _ dummy_rule Lr')).
Qed.

(** C25 *)
Theorem handler_token {V X E} (s1 s2 : sem V X E) k n p : token_wf t k -> agree_on k s1 s2 -> api_parse n t s1 p k = api_parse n t s2 p k.
Proof. intros Hk AG. apply (given_token t err_high lhs_high k s1 s2 AG Hk). Qed.

(** C22 *)
Theorem midway_calls {V X E} (sm : sem V X E) n p k : types_ok ds -> midway b sm p -> token_wf t k ->
  ps_status p = Normal /\ match api_parse n t sm p k with ROk _ p' => midway b sm p' | RErr _ p' => ps_status p' = Failed | RPanic => False | RFuel => True end.
Proof.
  intros TO HW Hk. pose proof (midway_safe ds b EX US sm p TO HW) as HS. split; [apply HS|]. destruct (api_parse n t sm p k) as [[] p'|e p'| |] eqn:Ep; auto.
  - eapply mw_call; eauto.
  - now destruct (failed_stays t sm n p k e p' Ep).
  - unfold api_parse in Ep. destruct (token_value t sm k) as [a m] eqn:Ek. assert (Hin : In (a, m) (map (token_value t sm) [k])) by (rewrite <- Ek; now left).
    pose proof (input_wf ds b EX US sm [k] (Forall_cons _ Hk (Forall_nil _)) a m Hin) as HT.
    pose proof (parse_token_safe _ _ _ _ _ P _ _ _ (ex_hooks ds b EX US sm TO) n p a m HS (or_intror HT)) as HS'. now rewrite Ep in HS'.
Qed.
Theorem midway_end {V X E} (sm : sem V X E) n p : types_ok ds -> midway b sm p -> end_of_input n t (user_hooks t sm) p <> RPanic.
Proof.
  intros TO HW H. pose proof (midway_safe ds b EX US sm p TO HW) as HS. pose proof (end_safe _ _ _ _ _ P _ _ _ (ex_hooks ds b EX US sm TO) n p HS) as HE. rewrite H in HE. exact HE.
Qed.

(** C24 *)
Theorem expected_shape s : let l := expected_tokens t s in NoDup l /\ (forall c, In c l -> 0 < c < t_nterm t) /\
  forall V X E (sm : sem V X E) c, In c l -> token_build t c (0, v_unit sm) = if opt_is_some (name_type ds (tok_name b c)) then None else Some (c, None).
Proof.
  cbv zeta. unfold expected_tokens. splits.
  - apply NoDup_filter, seq_NoDup.
  - intros c Hc. apply filter_In in Hc as [Hc _]. apply in_seq in Hc. lia.
  - intros V X E sm c Hc. apply filter_In in Hc as [Hc _]. apply in_seq in Hc. rewrite (nterm_eq ds b EX US) in Hc. assert (Lc : 0 < c < g_nterm g) by lia.
    pose proof (wg_dflt_range g W) as HR. assert (Ln : c < List.length (g_syms g)) by lia.
    destruct (ex_decl ds b EX) as (opts & DE). destruct (term_name ds g opts DE W c Lc) as (Ac & Uc & _).
    rewrite (name_eq ds b EX US) by lia. rewrite <- (dtype_name ds g opts DE W c _ Ac (or_introl Uc)), <- (typed_iff _ _ _ _ _ P) by auto.
    unfold token_build. rewrite (nterm_eq ds b EX US). replace (0 <? c) with true by (symmetry; apply Nat.ltb_lt; lia). replace (c <? g_nterm g) with true by (symmetry; apply Nat.ltb_lt; lia). cbn [andb fst].
    destruct (typed t c) eqn:Et; auto. destruct (Nat.eqb_spec 0 (dt_of t c)) as [E0|E0]; auto. exfalso. symmetry in E0. apply (zero_dt _ _ _ _ _ P) in E0; auto. rewrite (typed_iff _ _ _ _ _ P) in Et by auto. now rewrite E0 in Et.
Qed.

Lemma lookup_ok s a w : plain ds -> s < ns -> 0 < a < g_nterm g -> can b s a w ->
  match find_shift_action t (num s) a with LAct a0 => a0 < ns + List.length (g_rules g) | _ => False end.
Proof.
  intros PL Hs La Hw. destruct (own_action ds b EX US s a w Hs La Hw (proj2 PL)) as (w' & [Hp _] & Hd & _).
  assert (HD : does b s a w') by (apply Hd; intros (_ & r & pt & pr & _ & E & _); rewrite (proj1 PL) in E; discriminate). destruct w' as [|r]; cbn [does can] in *.
  - destruct HD as (gamma & X & q & _ & _ & [Lq _] & ->). pose proof (num_lt g _ _ _ _ P q Lq). lia.
  - unfold says_reduce in HD. rewrite HD, (t_ns _ _ _ _ _ P). destruct Hp as (_ & ru & _ & Hr & _). assert (r < List.length (g_rules g)) by (apply nth_error_Some; congruence). lia.
Qed.
(** In a state where a token was found to be an error, the expected tokens are those for which
    the state has something to do, for the token itself or one it falls back to. *)
Theorem expected_exact s a c : plain ds -> s < ns -> 0 < a < g_nterm g -> 0 < c < g_nterm g -> says_error b s a ->
  (In c (expected_tokens t (num s)) <-> exists c', 0 < c' < g_nterm g /\ falls ds (tok_name b c) (tok_name b c') /\ exists w, can b s c' w).
Proof.
  intros PL Hs La Lc HE. pose proof (no_wild ds b EX (proj2 PL)) as NW. pose proof (ex_single ds b EX US PL) as SI. destruct (ex_decl ds b EX) as (opts & DE).
  pose proof (wg_dflt_range g W) as HR. pose proof (ex_settled ds b EX US s Hs) as SE.
  assert (NE : forall x, ~ In (mkAct x Error) (acts (bt_acts b) s)).
  { intros x Hx. destruct (error_src _ _ _ _ _ P s x Hs Hx) as ((q & Rq) & (r & Rr & _) & _). discriminate (SI s x _ _ Hs Rq Rr). }
  assert (DD : dd g (acts (bt_comp b) s) = Error).
  { unfold says_error in HE. destruct (shift_lookup_total _ _ _ _ _ P s a Hs (or_introl (proj2 La))) as (d & Hd & HF). rewrite HE, (t_ns _ _ _ _ _ P), (t_nr _ _ _ _ _ P) in HF. injection HF as HF.
    destruct (slook_where _ _ _ _ Hd) as [(x & Hx & He)| ->].
    - exfalso. apply eff_in in He as [Hin Hem]. pose proof (looks_tokenish g _ _ _ _ P _ _ (or_introl (proj2 La)) Hx) as Tx.
      destruct (comp_src _ _ _ _ _ P s x d Hs Hin Hem (tokenish_dflt g W (bt_auto b) x Tx)) as [[Hl R]|[-> _]].
      + destruct d; try contradiction; cbn in HF.
        * inversion R as [Y q0 m0 He0 Hc0| |]; subst. pose proof (num_lt g _ _ _ _ P s0 (proj1 (au_edge g _ Au _ _ _ He0))). lia.
        * inversion R; subst. lia.
        * inversion R as [|r' x' Hl' _|]; subst. destruct Hl' as (st & cc & ? & ? & ? & _). assert (Hi : item (bt_auto b) s (r, rlen g r)) by (exists st, cc; auto). pose proof (au_valid g _ Au _ _ Hi) as [Lr _]. cbn in Lr. lia.
      + destruct (pp_comp _ _ _ _ _ P s Hs) as [dr C]. apply (co_mem _ _ _ _ C _ _ Hem) in Hin; [|now apply (tokenish_dflt g W (bt_auto b))]. now apply NE in Hin.
    - destruct (pp_comp _ _ _ _ _ P s Hs) as [dr C]. rewrite (comp_dd _ _ _ _ s dr Hs C) in HF |- *. destruct dr as [r|]; auto. exfalso. cbn in HF.
      destruct (co_rule _ _ _ _ C r eq_refl) as (_ & la0 & Hin). pose proof (settled_raw g _ _ s la0 _ SE Hin I) as R. inversion R as [|r' x' (st & cc & ? & ? & ? & _) _|]; subst.
      assert (Hi : item (bt_auto b) s (r, rlen g r)) by (exists st, cc; auto). pose proof (au_valid g _ Au _ _ Hi) as [Lr _]. cbn in Lr. lia. }
  unfold expected_tokens. rewrite filter_In, in_seq, (nterm_eq ds b EX US), (t_ns _ _ _ _ _ P), (t_nr _ _ _ _ _ P). split.
  - intros [_ HL]. destruct (shift_lookup_total _ _ _ _ _ P s c Hs (or_introl (proj2 Lc))) as (d & Hd & HF). rewrite HF in HL. apply Nat.ltb_lt in HL.
    destruct (slook_where _ _ _ _ Hd) as [(x & Hx & He)| ->]; [|rewrite DD in HL; cbn in HL; lia].
    apply eff_in in He as [Hin Hem]. pose proof (looks_tokenish g _ _ _ _ P _ _ (or_introl (proj2 Lc)) Hx) as Tx.
    destruct (comp_src _ _ _ _ _ P s x d Hs Hin Hem (tokenish_dflt g W (bt_auto b) x Tx)) as [[Hl R]|[-> _]]; [|cbn in HL; lia].
    assert (Fx : falls_to g c x) by (destruct Hx as [? ?|w _ Hw]; [auto|congruence]).
    assert (Lx : 0 < x < g_nterm g).
    { split; [destruct (Nat.eq_dec x 0) as [->|]; [|lia]; rewrite (falls_zero _ _ _ _ _ P _ _ Fx (or_intror eq_refl)) in Lc; lia|]. destruct Tx as [Tx|Tx]; auto. pose proof (raw_le_dflt _ _ _ _ _ P _ _ _ R). lia. }
    exists x. splits; try lia.
    + rewrite !(name_eq ds b EX US) by lia. apply (falls_down ds g opts DE _ _ Fx). rewrite <- (name_eq ds b EX US) by lia. apply (tok_nonempty ds b EX US). lia.
    + destruct (raw_can ds b EX s x d Hs (proj2 Lx) R) as (q & w & _ & Hw). eauto.
  - intros (x & Lx & Fx & w & Hw). split; [lia|]. rewrite !(name_eq ds b EX US) in Fx by lia.
    destruct (falls_up ds g opts DE W c (gname g x)) with (3 := Fx) as (x' & Ax & FT & Hne); [rewrite <- (name_eq ds b EX US) by lia; apply (tok_nonempty ds b EX US); lia|lia|].
    assert (x' = x). { eapply (de_uniq _ _ _ DE); [exact Ax| |auto]. exists (gsym g x). split; [apply nth_error_nth'; lia|reflexivity]. } subst x'.
    destruct (can_raw ds b EX s x w Hs (proj2 Lx) Hw) as (q & Rw).
    assert (AC : acyclic_fb g) by (apply (pp_fb _ _ _ _ _ P)).
    assert (HG : forall n y, fb_ends g n y -> tokenish g y -> y <> 0 -> falls_to g y x -> match find_shift_action t (num s) y with LAct a0 => a0 < ns + List.length (g_rules g) | _ => False end).
    { intros n y HY. induction HY as [y n Hf|y c' n Hf HY IH]; intros Ty Hy FY.
      - destruct (falls_uncons _ _ _ FY) as [->|(c' & Hf' & _)]; [|congruence]. apply (lookup_ok s y w); auto.
      - destruct (Nat.lt_ge_cases y (g_nterm g)) as [Ly|Ly].
        + destruct (in_dec Nat.eq_dec y (map a_la (acts (bt_acts b) s))) as [Hin|Hno].
          * apply in_map_iff in Hin as ([y' d] & Ey & Hin). cbn in Ey. subst y'. destruct (settled_src g _ _ s SE y d Hin) as (d0 & Hr & _).
            destruct (raw_can ds b EX s y d0 Hs Ly Hr) as (q' & w' & _ & Hw'). apply (lookup_ok s y w'); auto. lia.
          * rewrite (absent_lookup _ _ _ _ _ P s y c'); auto.
            -- apply IH; [eapply (falls_tokenish _ _ _ _ _ P); [exact Ty|]; econstructor; [constructor|apply (gsym_fb g y c' Hf)|exact Hf]|exact (proj2 (fb_nz g W _ _ Hf))|]. destruct (falls_uncons _ _ _ FY) as [->|(c2 & Hf' & H2)]; [|congruence]. exfalso.
               destruct (choice_made ds b EX US s y Hs Lx) as (q1 & w1 & Hin1 & _); [eauto|]. apply Hno. apply in_map_iff. now exists (mkAct y (of_choice q1 w1)).
            -- intros d Hd. apply Hno. apply in_map_iff. now exists (mkAct y d).
        + rewrite (absent_lookup _ _ _ _ _ P s y c'); auto.
          -- apply IH; [eapply (falls_tokenish _ _ _ _ _ P); [exact Ty|]; econstructor; [constructor|apply (gsym_fb g y c' Hf)|exact Hf]|exact (proj2 (fb_nz g W _ _ Hf))|]. destruct (falls_uncons _ _ _ FY) as [->|(c2 & Hf' & H2)]; [lia|congruence].
          -- intros d Hd. destruct (settled_src g _ _ s SE y d Hd) as (d0 & Hr & _). pose proof (raw_le_dflt _ _ _ _ _ P _ _ _ Hr). destruct Ty as [Ty|Ty]; lia. }
    pose proof (HG _ c (fb_ends_acyclic g (bt_auto b) AC c) (or_introl (proj2 Lc)) ltac:(lia) FT) as H.
    destruct (find_shift_action t (num s) c); try contradiction. now apply Nat.ltb_lt.
Qed.
End Build.
