(** C06: what it takes for every run to end. *)
From Verif Require Import Base Syntax BaseFacts FrontEnd First States Actions Tables Runtime User Spec WfGrammar AutoFacts ActFacts PipeFacts
  SafeFacts AbsFacts HaltFacts TermFacts DeclSpec GramFacts LangFacts TypeFacts MeanSpec MeanFacts TypeDecl Main DeclMore Claims3 CompleteFacts CleanFacts LimitFacts LimitRun
  CycleSpec CycleFacts.
Open Scope string_scope. Open Scope nat_scope. Open Scope list_scope.

Section Build.
Context (ds : list decl) (b : built).
Notation g := (bt_grammar b). Notation t := (bt_tables b).
Hypothesis EX : expands ds b.
Hypothesis US : usable ds b.

Lemma single_of : (forall n, assoc_of ds n = None) -> single g (bt_auto b).
Proof. intros H. destruct (ex_decl ds b EX) as (opts & DE). eapply clean_single; [eapply ex_aut; eauto|eapply ex_settled; eauto|]. eapply decls_clean; eauto. Qed.

(** No name can turn into itself, which is always so without precedences; and the stack has a
    limit, as it has unless %stack_size 0 is declared, or there is no hidden left recursion, or
    there are no precedences and every name in the rules can produce some tokens. *)
Theorem parse_returns {V X E} (sm : sem V X E) x ks :
  (forall n, assoc_of ds n = None) \/ acyclic ds ->
  limit_of ds <> 0 \/ no_hidden ds \/ ((forall n, assoc_of ds n = None) /\ all_say ds) ->
  types_ok ds -> tokens_wf b ks ->
  exists n, forall n', n <= n' -> api_run n' t sm x ks = api_run n t sm x ks /\ api_run n t sm x ks <> RFuel.
Proof.
  intros HP HS TO Hk. unfold api_run. destruct (ex_decl ds b EX) as (opts & DE).
  assert (NC : forall s Z, ~ ups g (bt_auto b) s Z Z).
  { destruct HP as [HP|HA]; [|eapply cycle_none; eauto; eapply ex_wf; eauto].
    intros s Z. eapply no_cycle; eauto using single_of; [eapply ex_wf; eauto|eapply ex_aut; eauto]. }
  assert (HC : limit_of ds <> 0 \/ no_hidden ds \/ ((forall n, assoc_of ds n = None) /\ all_say ds)) by exact HS.
  destruct HC as [HL|[HH|[HQ HY]]].
  - eapply (LimitRun.run_ends _ _ _ _ _ (ex_pipe ds b EX US) (user_hooks t sm)); eauto using ex_hooks, input_wf.
    left. now rewrite (limit_eq ds b EX).
  - eapply (LimitRun.run_ends _ _ _ _ _ (ex_pipe ds b EX US) (user_hooks t sm)); eauto using ex_hooks, input_wf.
    right. eapply hidden_none; eauto. eapply ex_wf; eauto.
  - eapply (TermFacts.run_ends _ _ _ _ _ (ex_pipe ds b EX US) (user_hooks t sm)); eauto using ex_hooks, single_of, ex_start, input_wf.
    eapply says_derive; eauto.
Qed.
End Build.

(** The limit is 100 unless the declarations say otherwise. *)
Theorem default_limit ds : (forall n ty, ~ In (DStackSize n ty) ds) -> limit_of ds = 100.
Proof.
  unfold limit_of. generalize 100. induction ds as [|d l IH]; intros k H; auto.
  assert (Hl : forall n ty, ~ In (DStackSize n ty) l) by (intros n ty Hi; apply (H n ty); now right).
  destruct d; cbn [limit_from]; auto. exfalso. eapply H. now left.
Qed.

(** ** Checking the two conditions by a ranking of the names *)
Section Rank.
Context (ds : list decl) (rk : ident -> nat).
(** An element that is not empty: a token or alternatives *)
Definition solid (e : rhs_elem) : bool := let '(ns, o, _) := e in match ns with [n] => negb o && is_terminal_ident n | _ => true end.
Fixpoint loose_splits (l : list rhs_elem) : list (list rhs_elem * ident * list rhs_elem) :=
  match l with
  | [] => []
  | (ns, o, al) :: l' =>
      (match ns with [n] => [([], n, l')] | _ => [] end) ++
      (if solid (ns, o, al) then [] else map (fun '(fr, n, re) => ((ns, o, al) :: fr, n, re)) (loose_splits l'))
  end.
Definition rules_low : bool := forallb (fun d => negb (is_terminal_ident (d_lhs d)) && forallb (fun e => match fst (fst e) with [] => false | _ => true end) (d_rhs d)) (rules_in ds).
Definition acyclic_b : bool := rules_low &&
  forallb (fun d => match d_rhs d with ([n], _, _) :: re => existsb solid re || (rk n <? rk (d_lhs d)) | _ => true end) (rules_in ds).
Definition no_hidden_b : bool := rules_low &&
  forallb (fun d => forallb (fun '(fr, n, _) => match fr with [] => rk n <=? rk (d_lhs d) | _ => rk n <? rk (d_lhs d) end) (loose_splits (d_rhs d))) (rules_in ds).

Lemma low_says : rules_low = true -> (forall n w, says ds eq n w -> is_terminal_ident n = true -> w <> []) .
Proof.
  intros HL n w H Hn. destruct H as [a b n _ _|r w Hr _]; [discriminate|]. unfold rules_low in HL. rewrite forallb_forall in HL.
  specialize (HL r Hr). rewrite Hn in HL. discriminate.
Qed.
Lemma solid_elem : rules_low = true -> forall e, elem ds eq e [] -> solid e = false.
Proof.
  intros HL e H. inversion H as [n al w Hs|n al|n al w Hs|]; subst; cbn; auto.
  destruct (is_terminal_ident n) eqn:Hn; auto. exfalso. now apply (low_says HL _ _ Hs Hn).
Qed.
Lemma solid_elems : rules_low = true -> forall es, empty ds es -> existsb solid es = false.
Proof.
  intros HL. induction es as [|e es IH]; intros H; auto. inversion H as [|e' es' w1 w2 H1 H2 E1 E2]; subst. apply app_eq_nil in E2 as [-> ->].
  cbn. now rewrite (solid_elem HL e H1), IH.
Qed.
Theorem acyclic_b_ok : acyclic_b = true -> acyclic ds.
Proof.
  unfold acyclic_b. rewrite andb_true_iff, forallb_forall. intros [HL H].
  assert (T : forall m n, turns ds m n -> rk n < rk m).
  { induction 1 as [m n rear (r & o & al & Hr & <- & Er & _) He|m n k _ IH1 _ IH2]; [|lia].
    specialize (H r Hr). rewrite Er in H. cbn [app] in H. rewrite (solid_elems HL _ He) in H. now apply Nat.ltb_lt. }
  intros n Hn. specialize (T n n Hn). lia.
Qed.
Lemma splits_in fr n o al re : existsb solid fr = false -> forallb (fun e : rhs_elem => match fst (fst e) with [] => false | _ => true end) fr = true ->
  In (fr, n, re) (loose_splits (fr ++ ([n], o, al) :: re)).
Proof.
  induction fr as [|[[ns o'] al'] fr IH]; cbn [app loose_splits existsb forallb]; [intros; now left|].
  rewrite orb_false_iff, andb_true_iff. intros [S1 S2] [N1 N2]. rewrite S1. apply in_or_app. right. apply in_map_iff. exists (fr, n, re). auto.
Qed.
Theorem no_hidden_b_ok : no_hidden_b = true -> no_hidden ds.
Proof.
  unfold no_hidden_b. rewrite andb_true_iff, forallb_forall. intros [HL H].
  assert (T : forall f m n, begins ds f m n -> rk n <= rk m /\ (f = true -> rk n < rk m)).
  { induction 1 as [m fr n rear (r & o & al & Hr & <- & Er & He)|f f' m n k _ [A1 A2] _ [B1 B2]].
    - specialize (H r Hr). rewrite forallb_forall in H. specialize (H (fr, n, rear)). rewrite Er in H.
      unfold rules_low in HL. rewrite forallb_forall in HL. pose proof (HL r Hr) as HLr. rewrite andb_true_iff in HLr. destruct HLr as [_ HLr]. rewrite Er, forallb_app, andb_true_iff in HLr.
      assert (HLq : rules_low = true) by (unfold rules_low; now apply forallb_forall).
      specialize (H (splits_in fr n o al rear (solid_elems HLq _ He) (proj1 HLr))).
      destruct fr; [apply Nat.leb_le in H; split; [auto|discriminate]|apply Nat.ltb_lt in H; split; auto; lia].
    - split; [lia|]. rewrite orb_true_iff. intros [E|E]; [specialize (A2 E)|specialize (B2 E)]; lia. }
  intros n Hn. destruct (T _ _ _ Hn) as [_ T2]. specialize (T2 eq_refl). lia.
Qed.
End Rank.
