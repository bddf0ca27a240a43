(** %nonassoc: when a tied token is an error (C12). *)
From Verif Require Import Base Syntax BaseFacts FrontEnd First States Actions Tables Runtime User Spec WfGrammar FirstFacts ClosureFacts AutoFacts LalrFacts ActFacts GroupFacts CompFacts TabFacts PackFacts LookFacts PipeFacts PackMore Sizes RunFacts FrontFacts
  SoundFacts SafeFacts BuildFacts AbsFacts HaltFacts TermFacts CompleteFacts CleanFacts RefFacts DeclSpec DeclFacts GramFacts LangFacts TypeFacts MeanSpec MeanFacts TypeDecl RunMore Main Claims Claims2 Claims4 HandlerFacts.
Open Scope string_scope. Open Scope nat_scope. Open Scope list_scope.

Lemma error_holds g la : forall l n ap' l1 n1, resolve_against g (mkAct la Error) l n = (ap', l1, n1) -> ap' = mkAct la Error.
Proof.
  induction l as [|nap l IH]; intros n ap' l1 n1 H; cbn [resolve_against] in H; [now inversion H|].
  cbn [a_la a_det resolve_conflict] in H. destruct (la =? a_la nap); [|now inversion H].
  destruct (resolve_against g (mkAct la Error) l n) as [[ap1 l2] n2] eqn:E. apply IH in E. now inversion H; subst.
Qed.

(** A shift on a %nonassoc token against rules none of which has a higher precedence and one of
    which has the same: the error marker takes its place. *)
Lemma tie_marks g la t k : sy_prec (gsym g la) = Some (k, ANone) -> forall rs ap' l1,
  (forall r p, In r rs -> r_prec (grule g r) = Some p -> fst p <= k) -> (exists r a, In r rs /\ r_prec (grule g r) = Some (k, a)) ->
  resolve_against g (sh la t) (map (rd la) rs) 0 = (ap', l1, 0) -> ap' = mkAct la Error.
Proof.
  intros Hp. induction rs as [|r rs IH]; intros ap' l1 Hle (r0 & a0 & Hin & H0) H; [contradiction|].
  cbn [map resolve_against sh rd a_la a_det] in H. rewrite Nat.eqb_refl in H. cbn [resolve_conflict] in H. rewrite Hp in H.
  destruct (r_prec (grule g r)) as [[l a]|] eqn:Er.
  - assert (L : l <= k) by (apply (Hle r (l, a)); auto; now left). unfold precedence_cmp in H. cbn [fst snd] in H. destruct (Nat.compare_spec k l) as [->|HL|HL]; [|lia|].
    + destruct (resolve_against g (mkAct la Error) (map (rd la) rs) 0) as [[ap1 l2] n2] eqn:E. apply error_holds in E. now inversion H; subst.
    + fold (sh la t) in H. destruct (resolve_against g (sh la t) (map (rd la) rs) 0) as [[ap1 l2] n2] eqn:E. inversion H; subst ap1 l1 n2. apply (IH ap' l2); auto.
      * intros r' p Hr'. apply Hle. now right.
      * destruct Hin as [->|Hin]; [rewrite Er in H0; injection H0 as -> _; lia|eauto].
  - exfalso. destruct (resolve_against g _ (map (rd la) rs) 1) as [[ap1 l2] n2] eqn:E. apply resolve_against_le in E. inversion H; subst. lia.
Qed.

Section Build.
Context (ds : list decl) (b : built).
Notation g := (bt_grammar b). Notation t := (bt_tables b).
Hypothesis EX : expands ds b.
Hypothesis US : usable ds b.
Notation P := (ex_pipe ds b EX US).
Notation Au := (ex_aut ds b EX).
Notation W := (ex_wf ds b EX).
Notation ns := (List.length (p_states (bt_auto b))).

(** Without a wildcard, a token that ties with a rule of its own %nonassoc line and meets no
    rule of a higher one is an error, provided it has no fallback of its own. *)
Theorem nonassoc_error s a : s < ns -> 0 < a < g_nterm g -> tie ds b s a -> (forall r, can_reduce b s r a -> yields_to ds b a (ToReduce r) ToShift) ->
  wildcard_of ds = None -> fallback_of ds (tok_name b a) = None -> says_error b s a.
Proof.
  intros Hs La (HS & r & pt & pr & HR & Ht & Hr & [He Hn]) Hall Hw Hf.
  apply (error_says ds b EX US); auto. apply group_acts.
  assert (Hla : a <> g_start g) by (intros ->; pose proof (proj1 (wg_start g W)) as K; apply (wg_nonterm g W) in K; lia).
  destruct (settled_cands g _ _ s (ex_settled ds b EX US s Hs) a Hla) as (ot & rs & _ & HT & HRd & HG).
  apply (raw_shift_iff ds b EX s a Hs) in HS as (q & HS); [|lia]. apply HT in HS. subst ot.
  unfold cands in HG. cbn [app List.length resolve_all] in HG.
  destruct (resolve_against g (sh a q) (map (rd a) rs) 0) as [[ap1 l1] n1] eqn:E1. destruct (resolve_all g _ l1 n1) as [l2 n2] eqn:E2.
  injection HG as HG ->. pose proof (resolve_all_le _ _ _ _ _ _ E2). assert (n1 = 0) by lia. subst n1.
  destruct pt as [k as']. cbn in He, Hn. subst as'. assert (ap1 = mkAct a Error).
  { eapply (tie_marks g a q k); eauto.
    - now rewrite (tok_prec ds b EX US).
    - intros r' p Hin Hp. apply HRd, (raw_reduce_iff ds b EX s r' a Hs) in Hin; [|lia]. destruct (Hall r' Hin) as (i & j & Hi & Hj & L).
      unfold level in Hi, Hj. rewrite Hp in Hi. rewrite Ht in Hj. cbn in Hi, Hj. injection Hi as <-. injection Hj as <-. auto.
    - apply (raw_reduce_iff ds b EX s r a Hs) in HR; [|lia]. apply HRd in HR. exists r, (snd pr). split; auto. rewrite Hr. destruct pr. cbn in *. now subst. }
  subst ap1. rewrite <- HG. now left.
Qed.
End Build.

(** ** C25 *)
Section Handlers.
Context (ds : list decl) (b : built).
Notation g := (bt_grammar b). Notation t := (bt_tables b).
Hypothesis EX : expands ds b.
Hypothesis US : usable ds b.

(** A %syntax_error block that ends the parse was given the very token passed to parse().  So
    was a %stack_overflow block if the token was about to be pushed; if it was a non-terminal
    (the left-hand side of a reduced rule, or the error symbol) it was given no token. *)
Theorem handlers_called {V X E} (sm : sem V X E) n p k e p' l : token_wf t k -> api_parse n t sm p k = RErr e p' ->
  (forall a, ps_log p' = EvSyntaxError a :: l -> a = fst k /\ exists exp x, u_syntax sm (Some k) exp x = (ps_extra p', inr e)) /\
  (forall a, ps_log p' = EvOverflow a :: l -> a = fst k /\ (exists x, u_overflow sm (Some k) x = (ps_extra p', e)) \/ t_nterm t <= a /\ exists x, u_overflow sm None x = (ps_extra p', e)).
Proof.
  intros Hk H. unfold api_parse in H. pose proof (build_value t sm k Hk) as HB. destruct (token_value t sm k) as [a m] eqn:Ek. cbn [fst snd] in HB.
  assert (a = fst k) by (unfold token_value in Ek; now inversion Ek). subst a.
  destruct (error_heard t (user_hooks t sm) (fst k) m (err_high ds b EX US) (lhs_high ds b EX US) n p e p' H) as [H1 H2]. split.
  - intros a Hl. destruct (H1 _ _ Hl) as (-> & ex & x & Hx). split; auto. cbn [h_syntax user_hooks] in Hx. rewrite HB in Hx.
    destruct (u_syntax sm (Some k) _ x) as [x' [v|e']] eqn:Eu; inversion Hx; subst. eauto.
  - intros a Hl. destruct (H2 _ _ Hl) as [(-> & x & Hx)|(La & m' & x & Hx)]; [left|right]; split; auto; cbn [h_overflow user_hooks] in Hx.
    + rewrite HB in Hx. eauto.
    + unfold token_build in Hx. rewrite (proj2 (Nat.ltb_ge _ _) La), andb_false_r in Hx. eauto.
Qed.
End Handlers.
