(** C45: parsing takes a number of steps proportional to the number of tokens. *)
From Verif Require Import Base Syntax BaseFacts FrontEnd First States Actions Tables Runtime User Spec WfGrammar AutoFacts ActFacts PipeFacts RunFacts BuildFacts
  SafeFacts AbsFacts HaltFacts TermFacts DeclSpec GramFacts LangFacts TypeFacts MeanSpec MeanFacts TypeDecl Main DeclMore Claims2 Claims3 CompleteFacts CleanFacts LimitFacts LimitRun
  CycleSpec CycleFacts Claims10 HiddenFacts LinearFacts LinearRun.
Open Scope string_scope. Open Scope nat_scope. Open Scope list_scope.

(** The parser a call ends_with behind, whether it returned [Ok] or [Err] *)
Definition ends_with {M X E R B} (r : res M X E R B) (p : parser M X R) : Prop := (exists y, r = ROk y p) \/ (exists e, r = RErr e p).

(** A quantity computed from the extra value that no block and no handler raises by more than one *)
Record one_each {V X E} (mu : X -> nat) (sm : sem V X E) : Prop := {
  oe_block : forall c vs x, mu (fst (u_block sm c vs x)) <= S (mu x);
  oe_syntax : forall k exp x, mu (fst (u_syntax sm k exp x)) <= S (mu x);
  oe_fail : forall x, mu (fst (u_fail sm x)) <= S (mu x);
  oe_overflow : forall k x, mu (fst (u_overflow sm k x)) <= S (mu x) }.

Lemma one_slow {V X E} t (mu : X -> nat) (sm : sem V X E) : one_each mu sm -> slow (user_hooks t sm) mu.
Proof.
  intros O. split; cbn [user_hooks h_reduce h_syntax h_fail h_overflow].
  - intros r vals x x' ve. unfold rule_reduce. destruct (match_args _ _) as [args|]; [|discriminate].
    assert (HC : forall c y, run_code sm c args x = Some y -> mu (fst y) <= S (mu x)).
    { intros c y Hy. destruct c; cbn [run_code] in Hy; try (injection Hy as <-; first [apply (oe_block _ _ O)|cbn; lia]);
        (destruct args as [|v [|]]; try discriminate; injection Hy as <-; cbn; lia). }
    destruct (run_code sm _ args x) as [[y [v|e]]|] eqn:Ec; [| |discriminate]; intros Hy; injection Hy as <- <-; apply HC in Ec; exact Ec.
  - intros a m exp x. pose proof (oe_syntax _ _ O (token_build t a m) (map (fun i => (i, token_build t i (0, v_unit sm))) exp) x) as H.
    destruct (u_syntax _ _ _ _) as [y r]. exact H.
  - apply (oe_fail _ _ O).
  - intros a m x. apply (oe_overflow _ _ O).
Qed.

Section Build.
Context (ds : list decl) (b : built).
Notation g := (bt_grammar b). Notation t := (bt_tables b).
Hypothesis EX : expands ds b.
Hypothesis US : usable ds b.

(** Grammars accepted without precedences in which everything can produce tokens have no hidden left recursion *)
Lemma plain_unhidden : (forall n, assoc_of ds n = None) -> all_say ds -> forall Z, ~ gpath g true Z Z.
Proof.
  intros HQ HY. destruct (ex_decl ds b EX) as (opts & DE). apply (hidden_never g (ex_wf ds b EX) (bt_auto b) (ex_aut ds b EX) (single_of ds b EX US HQ)).
  - eapply says_derive; eauto.
  - intros r Hr. destruct (ex_ran ds b EX) as (fuel & ord & f & _ & _ & R).
    destruct (find_actions_spec _ (ex_wf ds b EX) _ (ex_aut ds b EX) _ (rn_acts _ _ _ _ R)) as (_ & _ & S3 & S4).
    destruct (S4 r Hr) as (s & la & Hs & Hin). exists s, la. exact (settled_raw g _ _ s la _ (proj1 (S3 s Hs)) Hin I).
Qed.

Section Conditions.
Hypothesis HP : (forall n, assoc_of ds n = None) \/ acyclic ds.
Hypothesis HS : limit_of ds <> 0 \/ no_hidden ds \/ ((forall n, assoc_of ds n = None) /\ all_say ds).
Hypothesis TO : types_ok ds.

Lemma api_constant : exists k, forall V X E (sm : sem V X E) n x ks, tokens_wf b ks ->
    (match parse_all n t (user_hooks t sm) (new_parser (user_hooks t sm) x) (map (token_value t sm) ks) with
     | ROk _ p1 | RErr _ p1 => List.length (ps_log p1) + List.length (ps_stack p1) <= k * S (List.length ks)
     | _ => n < k * S (List.length ks) end) /\
    (match api_run n t sm x ks with
     | ROk _ p1 | RErr _ p1 => List.length (ps_log p1) <= k * S (List.length ks)
     | _ => n < k * S (List.length ks) end).
Proof.
  destruct (ex_decl ds b EX) as (opts & DE).
  assert (NC : forall s Z, ~ ups g (bt_auto b) s Z Z).
  { destruct HP as [HP'|HA]; [|eapply cycle_none; eauto; eapply ex_wf; eauto].
    intros s Z. eapply no_cycle; eauto using single_of; [eapply ex_wf; eauto|eapply ex_aut; eauto]. }
  assert (HL : t_limit t <> 0 \/ forall Z, ~ gpath g true Z Z).
  { destruct HS as [HL|[HH|[HQ HY]]].
    - left. now rewrite (limit_eq ds b EX).
    - right. eapply hidden_none; eauto. eapply ex_wf; eauto.
    - right. now apply plain_unhidden. }
  destruct (linear_constant _ _ _ _ _ (ex_pipe ds b EX US) NC HL) as (k & Hk). exists (S k).
  intros V X E sm n x ks Hks. specialize (Hk _ _ _ _ (user_hooks t sm) _ _ (ex_hooks ds b EX US sm TO) n x _ (input_wf ds b EX US sm ks Hks)).
  rewrite map_length in Hk. unfold api_run. destruct Hk as [H1 H2]. cbn [Nat.mul]. split.
  - destruct (parse_all _ _ _ _ _); lia.
  - destruct (Runtime.run _ _ _ _ _); lia.
Qed.

(** One constant [k] serves all inputs, all blocks and handlers and all extra values: a parse of
    [n] tokens performs at most [k (n + 1)] reductions, shifts, pops, drops and calls of handlers
    in all, and the stack never has more than [k (n + 1)] entries. *)
Theorem linear_time : exists k, forall V X E (sm : sem V X E) x ks, tokens_wf b ks ->
  (forall n, k * S (List.length ks) <= n -> exists p, ends_with (api_run n t sm x ks) p) /\
  (forall n p, ends_with (api_run n t sm x ks) p -> List.length (ps_log p) <= k * S (List.length ks)) /\
  (forall n p, ends_with (parse_all n t (user_hooks t sm) (new_parser (user_hooks t sm) x) (map (token_value t sm) ks)) p ->
     List.length (ps_log p) + List.length (ps_stack p) <= k * S (List.length ks)).
Proof.
  destruct api_constant as (k & Hk). exists k. intros V X E sm x ks Hks. splits.
  - intros n Hn. destruct (Hk V X E sm n x ks Hks) as [_ H]. unfold ends_with. destruct (api_run n t sm x ks); eauto; lia.
  - intros n p H. destruct (Hk V X E sm n x ks Hks) as [_ H2]. destruct H as [[y H]|[e H]]; rewrite H in H2; exact H2.
  - intros n p H. destruct (Hk V X E sm n x ks Hks) as [H2 _]. destruct H as [[y H]|[e H]]; rewrite H in H2; exact H2.
Qed.

(** Seen from the user's code: anything their blocks and handlers count up by one at most
    is at most [k (n + 1)] higher in the end. *)
Theorem linear_calls : exists k, forall V X E (sm : sem V X E) (mu : X -> nat) x ks, one_each mu sm -> tokens_wf b ks ->
  forall n p, ends_with (api_run n t sm x ks) p -> mu (ps_extra p) <= mu x + k * S (List.length ks).
Proof.
  destruct api_constant as (k & Hk). exists k. intros V X E sm mu x ks HO Hks n p H. destruct (Hk V X E sm n x ks Hks) as [_ H2].
  pose proof (run_paced t (user_hooks t sm) mu (one_slow t mu sm HO) n x (map (token_value t sm) ks)) as H3. fold (api_run n t sm x ks) in H3.
  destruct H as [[y H]|[e H]]; rewrite H in *; lia.
Qed.
End Conditions.
End Build.
