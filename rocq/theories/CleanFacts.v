(** Grammars without precedence: at most one candidate action per lookahead, and the
    table answers it (C02, C03, C05, C06). *)
From Verif Require Import Base Syntax BaseFacts FrontEnd First States Actions Tables Runtime
  PackFacts Spec WfGrammar FirstFacts ClosureFacts AutoFacts LalrFacts ActFacts CompFacts GroupFacts
  TabFacts LookFacts PipeFacts RunFacts SoundFacts AbsFacts TermFacts CompleteFacts.

(** No rule has a precedence; that is so when no %left, %right or %nonassoc is declared. *)
Definition clean (g : grammar) : Prop := forall r, r_prec (grule g r) = None.

Lemma clean_single g p p3 : Aut g p -> (forall s, s < List.length (p_states p) -> settled g p p3 s) -> clean g -> single g p.
Proof.
  intros A HS C s la d d' Hs R R'. destruct (se_clean g p p3 s (HS s Hs) C) as [ND Hin].
  apply Hin in R, R'. clear Hin. induction (acts p3 s) as [|a l IH]; [destruct R|]. simpl in ND. inversion ND as [|? ? Hni ND']; subst.
  destruct R as [->|R], R' as [E|R']; auto.
  - congruence.
  - exfalso. apply Hni. apply (in_map a_la) in R'. exact R'.
  - subst a. exfalso. apply Hni. apply (in_map a_la) in R. exact R.
Qed.

Section Clean.
Context (g : grammar) (p p3 p4 : pst) (t : tables) (P : Pipe g p p3 p4 t).
Notation ns := (List.length (p_states p)).
Notation nr := (List.length (g_rules g)).
Notation num := (state_num g p4).

Lemma raw_decided s la d : clean g -> s < ns -> raw g p s la d -> live d -> decided p3 s la d.
Proof.
  intros C Hs R L. destruct (se_clean g p p3 s (pp_settled _ _ _ _ _ P s Hs) C) as [ND Hin]. unfold decided. splits; auto.
  - now apply Hin.
  - intros HE. apply Hin in HE. inversion HE.
Qed.

Lemma clean_lookup : clean g -> g_wild g = None -> forall s la d, s < ns -> la < g_nterm g -> raw g p s la d -> live d ->
  find_shift_action t (num s) la = LAct (code ns nr num d).
Proof.
  intros C Hw s la d Hs Hla R L. apply (decided_lookup g p p3 p4 t P); auto; [now left|]. now apply raw_decided.
Qed.

Context {M X E R : Type} (h : hooks M X E R).

(** ** Prefixes of sentences (C05) *)
Lemma parse_all_app n ts1 : forall ts2 (pp : parser M X R), parse_all n t h pp (ts1 ++ ts2) =
  rbind (parse_all n t h pp ts1) (fun _ p1 => parse_all n t h p1 ts2).
Proof.
  induction ts1 as [|[a m] ts1 IH]; intros ts2 pp; cbn [app parse_all rbind]; auto.
  destruct (parse_token n t h pp a m) as [[] p1|e p1| |]; cbn [rbind]; auto.
Qed.

(** Shifts, reductions and acceptance: no report, nothing popped, nothing dropped. *)
Definition peaceful (e : event) : Prop := match e with EvShift _ | EvReduce _ | EvAccept => True | _ => False end.

Lemma calm_peaceful l : Forall calm l -> Forall peaceful l.
Proof. intros H. eapply Forall_impl; [|exact H]. intros []; cbn; auto. Qed.

Lemma ext_peaceful (p1 p2 : parser M X R) : ext p1 p2 -> Forall peaceful (ps_log p2) -> Forall peaceful (ps_log p1).
Proof. intros [l E0] F. rewrite E0 in F. now apply Forall_app in F. Qed.

Theorem prefix_peaceful (tr : tree M) x w1 w2 : clean g -> g_wild g = None -> derives g (direct g) (g_start g) tr -> fits t tr ->
  yield tr = w1 ++ w2 -> eval h tr x <> EvPanic -> (forall x' v, eval h tr x = EvOk x' v -> h_accept h v <> None) ->
  exists n, match parse_all n t h (new_parser h x) w1 with
            | ROk _ pp => Forall peaceful (ps_log pp)
            | RErr e pp => Forall peaceful (ps_log pp) /\ exists x', eval h tr x = EvErr x' e
            | _ => False
            end.
Proof.
  intros C Hw Hd Hf Hy Hp Ha. pose proof (run_complete g p p3 p4 t P h (clean_lookup C Hw) tr x Hd Hf) as HR.
  assert (HE : exists n res, run n t h x (yield tr) = res /\ match res with
     | ROk _ pp => Forall peaceful (ps_log pp)
     | RErr e pp => Forall peaceful (ps_log pp) /\ exists x', eval h tr x = EvErr x' e
     | _ => False end).
  { destruct (eval h tr x) as [x' v|x' e|] eqn:Ev; [| |contradiction].
    - specialize (Ha _ _ eq_refl). destruct (h_accept h v) as [root|]; [|contradiction]. destruct HR as (n & pp & HR & HL).
      exists n, (ROk (root, x') pp). split; auto. rewrite HL. constructor; [exact I|]. apply calm_peaceful, Forall_rev, events_calm.
    - destruct HR as (n & pp & HR & _ & _ & HL). exists n, (RErr e pp). split; auto. split; [now apply calm_peaceful|eauto]. }
  destruct HE as (n & res & Hrun & Hres). exists n. unfold run in Hrun. rewrite Hy, parse_all_app in Hrun.
  destruct (parse_all n t h (new_parser h x) w1) as [[] p1|e p1| |] eqn:E1; cbn [rbind] in Hrun; subst res; auto.
  pose proof (parse_all_ext t h n w2 p1) as X2. destruct (parse_all n t h p1 w2) as [[] p2|e p2| |] eqn:E2; cbn [rbind] in Hres; try contradiction.
  - unfold end_of_input in Hres. pose proof (parse_token_ext t h n p2 0 (h_unit h)) as X3.
    destruct (parse_token n t h p2 0 (h_unit h)) as [[] p3'|e p3'| |]; cbn [rbind] in Hres; try contradiction.
    + destruct (ps_status p3'); try contradiction. eapply ext_peaceful; [exact X2|]. eapply ext_peaceful; [exact X3|exact Hres].
    + eapply ext_peaceful; [exact X2|]. eapply ext_peaceful; [exact X3|apply Hres].
  - eapply ext_peaceful; [exact X2|apply Hres].
Qed.
End Clean.
