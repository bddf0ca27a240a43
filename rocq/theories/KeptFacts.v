(** Trees whose every step is the one the resolved action lists decide on.  The plain LR parser
    accepts an input with a value exactly when it has such a tree with that value (C39); and in
    such trees operators are nested as their precedences say (C40). *)
From Verif Require Import Base Syntax BaseFacts FrontEnd First States Actions Tables Runtime
  PackFacts Spec WfGrammar FirstFacts ClosureFacts StatesFacts DfsFacts FollowFacts AutoFacts LalrFacts ActFacts CompFacts GroupFacts
  TabFacts LookFacts PipeFacts RunFacts SoundFacts AbsFacts HaltFacts TermFacts CompleteFacts RefFacts FrontFacts DeclSpec DeclFacts GramFacts LangFacts FaultDuel FaultAct Claims8.

(** ** Who wins a conflict *)
Section Winner.
Context (g : grammar) (W : wf_grammar g) (p : pst) (A : Aut g p) (p3 : pst).
Hypothesis OW : forall i u v, some_prec g (i, u) -> some_prec g (i, v) -> u = v.
Context (s : nat) (S3 : settled g p p3 s).
Notation raw := (raw g p s).

Lemma cands_raw a ot rs d : (forall t, raw a (Shift t) <-> ot = Some t) -> (forall r, raw a (Reduce r) <-> In r rs) -> a <> g_start g ->
  raw a d <-> In d (dets (cands a ot rs)).
Proof.
  intros HT HR N. unfold dets, cands. split.
  - intros R. pose proof (raw_sr g p s a d N R) as Hd. apply in_map_iff. destruct d as [t| |r| | | | | | |]; try contradiction.
    + apply HT in R. subst ot. exists (sh a t). split; auto. now left.
    + apply HR in R. exists (rd a r). split; auto. apply in_app_iff. right. now apply in_map.
  - intros H. apply in_map_iff in H as (x & <- & H). apply in_app_iff in H as [H|H].
    + destruct ot as [t|]; [|contradiction]. destruct H as [<-|[]]. now apply HT.
    + apply in_map_iff in H as (r & <- & Hr). now apply HR.
Qed.

Lemma winner a d d' : a <> g_start g -> In (mkAct a d) (acts p3 s) -> sr d -> raw a d' -> d' = d \/ beats g a d d'.
Proof.
  intros N Hin Hd R. destruct (settled_cands g p p3 s S3 a N) as (ot & rs & [ND HS] & HT & HR & HG).
  pose proof (fun d => cands_raw a ot rs d HT HR N) as HC.
  assert (HX : forall x, In x (cands a ot rs) -> a_la x = a /\ sr (a_det x)).
  { intros x Hx. unfold cands in Hx. apply in_app_iff in Hx as [Hx|Hx]; [destruct ot; [destruct Hx as [<-|[]]; cbn; auto|contradiction]|]. apply in_map_iff in Hx as (r & <- & _). cbn. auto. }
  assert (HU : upl (dets (cands a ot rs))).
  { apply (upl_group a); auto. intros r HB. apply before_dup in HB. apply HB. unfold cands. destruct ot as [t|]; cbn.
    - constructor; [|apply FinFun.Injective_map_NoDup; auto; intros ? ? E; now injection E]. rewrite in_map_iff. intros (x & E & _). discriminate.
    - apply FinFun.Injective_map_NoDup; auto. intros ? ? E. now injection E. }
  assert (HSR : forall x, In x (dets (cands a ot rs)) -> sr x). { intros x Hx. apply in_map_iff in Hx as (y & <- & Hy). now apply HX. }
  apply HC in R. apply group_acts in Hin. destruct (cands a ot rs) as [|c l] eqn:EC; [contradiction|].
  destruct (HX c (or_introl eq_refl)) as [Ec Sc]. destruct c as [la c]. cbn in Ec, Sc. subst la.
  destruct (all_duel g a (List.length l) c l 0 (group a (acts p3 s)) 0) as (D1 & D2 & D3); auto.
  - apply Forall_forall. intros x Hx. apply HX. now right.
  - apply (upl_ordl (c :: dets l)); auto.
  - specialize (D3 _ Hin Hd). cbn in D3. destruct (champ_run g a (dprec_word g OW a) (dets l) [c] c) as [[_ HCh] _]; auto.
    + split; [now left|]. intros x [->|[]]. auto.
    + subst d. destruct (HCh d' R); auto.
Qed.

(** A shift that is done has a higher precedence than a rule that could be reduced, or the same
    and the token is %right. *)
Lemma shift_won a q r : a <> g_start g -> In (mkAct a (Shift q)) (acts p3 s) -> raw a (Reduce r) ->
  exists i u j v, sy_prec (gsym g a) = Some (i, u) /\ r_prec (grule g r) = Some (j, v) /\ (j < i \/ i = j /\ u = ARight).
Proof.
  intros N Hin R. destruct (winner a (Shift q) (Reduce r) N Hin Logic.I R) as [H|H]; [discriminate|].
  destruct H as (i & u & j & v & P1 & P2 & P3). exists i, u, j, v. splits; auto.
Qed.
(** A rule that is reduced has a higher precedence than a token that could be shifted, or the
    same and the token is %left. *)
Lemma reduce_won a q r : a <> g_start g -> In (mkAct a (Reduce r)) (acts p3 s) -> ~ In (mkAct a Error) (acts p3 s) -> raw a (Shift q) ->
  exists i u j v, sy_prec (gsym g a) = Some (i, u) /\ r_prec (grule g r) = Some (j, v) /\ (i < j \/ i = j /\ u = ALeft).
Proof.
  intros N Hin HE R. destruct (winner a (Reduce r) (Shift q) N Hin Logic.I R) as [H|H]; [discriminate|].
  destruct H as (j & v & i & u & P1 & P2 & P3). cbn in P1, P2. exists i, u, j, v. splits; auto. destruct P3 as [P3|[<- P3]]; auto.
  destruct u; auto; [contradiction|]. exfalso. apply HE. clear P3.
  destruct (settled_cands g p p3 s S3 a N) as (ot & rs & _ & HT & HR & HG). apply HT in R. subst ot.
  unfold cands in HG. cbn [app List.length resolve_all] in HG.
  destruct (resolve_against g (sh a q) (map (rd a) rs) 0) as [[ap1 l1] n1] eqn:E1. destruct (resolve_all g _ l1 n1) as [l2 n2] eqn:E2.
  injection HG as HG ->. pose proof (resolve_all_le _ _ _ _ _ _ E2). assert (n1 = 0) by lia. subst n1. apply group_acts. rewrite <- HG. left.
  eapply (tie_marks g a q j); eauto.
  - intros r' q' Hr' Hp. apply HR in Hr'. destruct (winner a (Reduce r) (Reduce r') N Hin Logic.I Hr') as [H'|H'].
    + injection H' as ->. rewrite P1 in Hp. injection Hp as <-. cbn. lia.
    + destruct H' as (i' & u' & j' & v' & Q1 & Q2 & Q3). cbn in Q1, Q2. rewrite P1 in Q1. injection Q1 as <- <-. rewrite Hp in Q2. injection Q2 as ->. cbn. destruct Q3 as [Q3|[-> _]]; lia.
  - exists r, v. split; auto. apply HR. apply (settled_raw g p p3 s _ _ S3) in Hin; auto. exact Logic.I.
Qed.
End Winner.

(** ** The trees the resolved action lists decide on *)
Section Kept.
Context (g : grammar) (p p3 p4 : pst) (t : tables) (P : Pipe g p p3 p4 t).
Let W := pp_wf _ _ _ _ _ P.
Let A := pp_aut _ _ _ _ _ P.
Notation ns := (List.length (p_states p)).
Context {M : Type}.

(** The token that follows: the first of [w], or [b] if there is none *)
Definition la_at (w : list (nat * M)) (b : nat) : nat := match w with [] => b | (a, _) :: _ => a end.

(** [kept s X tr b]: reading [tr] for the symbol [X] from state [s], with [b] the token after it,
    takes only steps that the action lists decide on. *)
Inductive kept : nat -> nat -> tree M -> nat -> Prop :=
| k_tok s X a m b q : edge g p s X q -> ract g (acts p3 s) a (Shift q) -> kept s X (TTok a m) b
| k_node s r ru ts b s' : nth_error (g_rules g) r = Some ru -> kept_all s (map fst (r_rhs ru)) ts b s' -> ract g (acts p3 s') b (Reduce r) ->
    kept s (r_lhs ru) (TNode r ts) b
with kept_all : nat -> list nat -> list (tree M) -> nat -> nat -> Prop :=
| ka_nil s b : kept_all s [] [] b s
| ka_cons s X q Xs tr ts b s' : kept s X tr (la_at (flat_map yield ts) b) -> edge g p s X q -> kept_all q Xs ts b s' ->
    kept_all s (X :: Xs) (tr :: ts) b s'.
Scheme kept_mind := Minimality for kept Sort Prop
  with kept_all_mind := Minimality for kept_all Sort Prop.
Combined Scheme kept_both from kept_mind, kept_all_mind.

Lemma la_at_app w (inp : list (nat * M)) : la_at w (la_of inp) = la_of (w ++ inp).
Proof. now destruct w as [|[a m] w]. Qed.
Lemma la_at_two w w' b : la_at w (la_at w' b) = la_at (w ++ w') b.
Proof. now destruct w as [|[a m] w]. Qed.

Lemma kept_all_snoc s Xs ts b s1 Y tr q : kept_all s Xs ts (la_at (yield tr) b) s1 -> kept s1 Y tr b -> edge g p s1 Y q ->
  kept_all s (Xs ++ [Y]) (ts ++ [tr]) b q.
Proof.
  revert s ts. induction Xs as [|X Xs IH]; intros s ts H K E; inversion H as [|? ? q0 ? tr0 ts0 ? ? K0 E0 H0]; subst; cbn [app].
  - econstructor; eauto. constructor.
  - econstructor; [|exact E0|apply IH; eauto]. rewrite flat_map_app. cbn [flat_map]. rewrite app_nil_r. now rewrite <- la_at_two.
Qed.

Context {X E R : Type} (h : hooks M X E R).

(** The stack of the plain parser, with the symbols and the trees read so far, latest first *)
Inductive held (x0 : X) : list (nat * M) -> list nat -> list (tree M) -> list (nat * M) -> X -> Prop :=
| hd_nil v inp : held x0 [(0, v)] [] [] inp x0
| hd_push s v0 stk Xs fs inp x1 Y q tr v x2 : held x0 ((s, v0) :: stk) Xs fs (yield tr ++ inp) x1 -> edge g p s Y q ->
    kept s Y tr (la_of inp) -> eval h tr x1 = EvOk x2 v -> held x0 ((q, v) :: (s, v0) :: stk) (Y :: Xs) (tr :: fs) inp x2.

Lemma held_spine x0 s v stk Xs fs inp x : held x0 ((s, v) :: stk) Xs fs inp x -> exists st : list (entry M), spine g p p4 st Xs s.
Proof.
  remember ((s, v) :: stk) as l eqn:El. intros H. revert s v stk El. induction H as [v' inp|s0 v0 stk0 Xs fs inp x1 Y q tr v' x2 H IH HE K HV]; intros s v stk El; injection El as <- <- <-.
  - exists []. constructor.
  - destruct (IH _ _ _ eq_refl) as [st Hst]. exists (mkEntry (state_num g p4 q) Y v' :: st). econstructor; eauto.
Qed.
Lemma held_same x0 stk Xs fs inp inp' x : held x0 stk Xs fs inp x -> inp = inp' -> held x0 stk Xs fs inp' x.
Proof. now intros H <-. Qed.

Lemma held_split x0 : forall pop s0 v0 rest Xs fs inp x2, held x0 (pop ++ (s0, v0) :: rest) Xs fs inp x2 ->
  exists Xs1 Xs2 fs1 fs2 x1, Xs = Xs1 ++ Xs2 /\ fs = fs1 ++ fs2 /\ List.length Xs1 = List.length pop /\
    held x0 ((s0, v0) :: rest) Xs2 fs2 (flat_map yield (rev fs1) ++ inp) x1 /\
    kept_all s0 (rev Xs1) (rev fs1) (la_of inp) (fst (hd (s0, v0) pop)) /\ eval_list h (rev fs1) x1 = EvOk x2 (rev (map snd pop)).
Proof.
  induction pop as [|[q v] pop IH]; intros s0 v0 rest Xs fs inp x2 H.
  - exists [], Xs, [], fs, x2. cbn. splits; auto. constructor.
  - cbn [app] in H. inversion H as [|s v1 stk Xs' fs' inp' x1 Y q' tr v' x2' H1 HE HK HV]; subst; [destruct pop; discriminate|].
    match goal with Hq : (s, v1) :: stk = pop ++ _ |- _ => rewrite Hq in H1; rename Hq into Ep end.
    destruct (IH _ _ _ _ _ _ _ H1) as (Xs1 & Xs2 & fs1 & fs2 & x3 & -> & -> & L & H2 & K2 & E2).
    exists (Y :: Xs1), Xs2, (tr :: fs1), fs2, x3. cbn [rev app hd fst List.length map snd]. splits; auto.
    + rewrite flat_map_app. cbn [flat_map]. rewrite app_nil_r, <- app_assoc. exact H2.
    + assert (Es : fst (hd (s0, v0) pop) = s) by (destruct pop; cbn in *; injection Ep; intros; subst; auto). rewrite Es in K2.
      eapply kept_all_snoc; eauto. now rewrite la_at_app.
    + rewrite eval_list_app, E2. cbn [eval_list]. now rewrite HV.
Qed.

Notation rparse := (rparse g p3 h).

Lemma held_rule x0 s v stk Xs fs inp x r pop s0 v0 rest b : held x0 ((s, v) :: stk) Xs fs inp x -> raw g p s b (Reduce r) ->
  (s, v) :: stk = pop ++ (s0, v0) :: rest -> List.length pop = List.length (r_rhs (grule g r)) ->
  exists Xs2 fs1 fs2 x1, s0 < ns /\ Xs = rev (map fst (r_rhs (grule g r))) ++ Xs2 /\ fs = fs1 ++ fs2 /\
    held x0 ((s0, v0) :: rest) Xs2 fs2 (flat_map yield (rev fs1) ++ inp) x1 /\
    kept_all s0 (map fst (r_rhs (grule g r))) (rev fs1) (la_of inp) s /\ eval_list h (rev fs1) x1 = EvOk x (rev (map snd pop)).
Proof.
  intros H Hraw Ek Lp. inversion Hraw as [|r' b' Hlook Hbt|]; subst. pose proof (look_item p _ _ _ Hlook) as Hi.
  destruct (held_spine _ _ _ _ _ _ _ _ H) as [st Hst].
  destruct (spine_pop g p p3 p4 t P r _ _ _ _ Hst Hi) as (st1 & st2 & Y1 & Y2 & s2 & -> & EX & L1 & L2 & HY & Hs2 & Hi2).
  pose proof H as H'. rewrite Ek in H'. destruct (held_split _ _ _ _ _ _ _ _ _ H') as (Xs1 & Xs2 & fs1 & fs2 & x1 & -> & -> & L & H2 & K2 & E2).
  assert (Es : fst (hd (s0, v0) pop) = s) by (destruct pop; cbn in *; injection Ek; intros; subst; auto). rewrite Es in K2.
  apply app_split_len in EX as [-> ->]; [|unfold rlen in L2; congruence].
  unfold rlen in HY. rewrite firstn_all in HY. rewrite HY in K2. exists Y2, fs1, fs2, x1. splits; auto.
  - destruct (held_spine _ _ _ _ _ _ _ _ H2) as [st' Hst']. eapply (spine_range g p p3 p4 t P); eauto.
  - now rewrite <- HY, rev_involutive.
Qed.

Theorem rparse_kept stk x inp x' root : rparse stk x inp x' root -> forall x0 Xs fs, held x0 stk Xs fs inp x ->
  exists tr v, kept 0 (g_start g) tr 0 /\ yield tr = flat_map yield (rev fs) ++ inp /\ eval h tr x0 = EvOk x' v /\ h_accept h v = Some root.
Proof.
  induction 1 as [s v stk x a m inp q x' root Hra HR IH
    |[s v1] stk x inp r ru pop s0 v0 rest x1 v q x' root Ek Hra Hru Lp Hred Hgo HR IH
    |[s v1] stk x r ru pop s0 v0 rest x1 v root Ek Hra Hru Lp Hred Hgo Hacc]; intros x0 Xs fs H; cbn [fst] in *;
    destruct (held_spine _ _ _ _ _ _ _ _ H) as [st Hst]; pose proof (spine_range g p p3 p4 t P _ _ _ Hst) as Hs.
  - destruct (ract_raw g p p3 p4 t P s a _ Hs Hra) as (b & Hab & Hraw); [discriminate|].
    inversion Hraw as [Y q' m' Hedge Hcov| |]; subst.
    destruct (IH x0 (Y :: Xs) (TTok a m :: fs)) as (tr & v' & K & Ey & Ev & Ea).
    + econstructor; eauto. econstructor; eauto.
    + exists tr, v'. splits; auto. rewrite Ey. cbn [rev]. rewrite flat_map_app, <- app_assoc. reflexivity.
  - destruct (ract_raw g p p3 p4 t P s _ _ Hs Hra) as (b & Hab & Hraw); [discriminate|]. pose proof (grule_nth g _ _ Hru) as Er. rewrite <- Er in *.
    assert (Hrn : r < List.length (g_rules g)) by (apply nth_error_Some; congruence).
    destruct (held_rule _ _ _ _ _ _ _ _ _ _ _ _ _ _ H Hraw Ek Lp) as (Xs2 & fs1 & fs2 & x2 & Hs0 & -> & -> & H2 & K2 & E2).
    apply (goto_edge g p p3 p4 t P s0 _ q Hs0 (lhs_nt g p p3 p4 t P _ Hrn) (lhs_dflt g p p3 p4 t P _ Hrn)) in Hgo.
    destruct (IH x0 (r_lhs (grule g r) :: Xs2) (TNode r (rev fs1) :: fs2)) as (tr & v' & K & Ey & Ev & Ea).
    + apply hd_push with (x1 := x2); auto.
      * eapply k_node; eauto.
      * rewrite eval_node, E2. unfold finish. now rewrite Hred.
    + exists tr, v'. splits; auto. rewrite Ey. cbn [rev yield]. rewrite rev_app_distr, !flat_map_app. cbn [flat_map yield]. now rewrite app_nil_r.
  - destruct (ract_raw g p p3 p4 t P s _ _ Hs Hra) as (b & Hab & Hraw); [discriminate|]. pose proof (grule_nth g _ _ Hru) as Er. rewrite <- Er in *.
    assert (Hrn : r < List.length (g_rules g)) by (apply nth_error_Some; congruence).
    destruct (held_rule _ _ _ _ _ _ _ _ _ _ _ _ _ _ H Hraw Ek Lp) as (Xs2 & fs1 & fs2 & x2 & Hs0 & -> & -> & H2 & K2 & E2).
    apply (accept_edge g p p3 p4 t P s0 _ Hs0 (lhs_nt g p p3 p4 t P _ Hrn) (lhs_dflt g p p3 p4 t P _ Hrn)) in Hgo as [-> Hstt].
    inversion H2 as [|s3 v3 k3 Xs3 fs3 inp3 x3 Y q tr v' x4 H3 HE3]; subst; [|exfalso; eapply no_edge_0; eauto].
    exists (TNode r (rev fs1)), v. splits; auto.
    + rewrite <- Hstt. eapply k_node; eauto.
    + now rewrite !app_nil_r.
    + rewrite eval_node, E2. unfold finish. now rewrite Hred.
Qed.

Lemma kept_runs :
  (forall s Y tr b, kept s Y tr b -> s < ns -> forall q, edge g p s Y q -> forall x x1 v, eval h tr x = EvOk x1 v ->
     forall v0 stk inp x' root, la_of inp = b -> rparse ((q, v) :: (s, v0) :: stk) x1 inp x' root -> rparse ((s, v0) :: stk) x (yield tr ++ inp) x' root) /\
  (forall s Ys ts b s', kept_all s Ys ts b s' -> s < ns -> forall x x1 vs, eval_list h ts x = EvOk x1 vs -> forall v0 stk inp, la_of inp = b ->
     exists pop, List.length pop = List.length Ys /\ rev (map snd pop) = vs /\ fst (hd (s, v0) pop) = s' /\
       forall x' root, rparse (pop ++ (s, v0) :: stk) x1 inp x' root -> rparse ((s, v0) :: stk) x (flat_map yield ts ++ inp) x' root).
Proof.
  apply kept_both.
  - intros s Y a m b q0 He Hr Hs q Hq x x1 v Ev v0 stk inp x' root Hb HR. cbn in Ev. injection Ev as <- <-. cbn [yield app].
    rewrite (au_fun g p A _ _ _ _ Hq He) in HR. eapply rp_shift; eauto.
  - intros s r ru ts b s' Hru HK IH Hra Hs q Hq x x1 v Ev v0 stk inp x' root Hb HR. rewrite eval_node in Ev.
    destruct (eval_list h ts x) as [x2 vs|? ?|] eqn:El; try discriminate. unfold finish in Ev. destruct (h_reduce h r vs x2) as [[x3 [v3|e]]|] eqn:Eh; try discriminate. injection Ev as -> ->.
    destruct (IH Hs _ _ _ El v0 stk inp Hb) as (pop & Lp & Ep & Es & Hrun). cbn [yield]. apply Hrun.
    assert (Hrn : r < List.length (g_rules g)) by (apply nth_error_Some; congruence). pose proof (grule_nth g _ _ Hru) as Er.
    assert (Hgo : In (mkAct (r_lhs ru) (Shift q)) (acts p3 s)).
    { rewrite <- Er in *. now apply (goto_edge g p p3 p4 t P s _ q Hs (lhs_nt g p p3 p4 t P _ Hrn) (lhs_dflt g p p3 p4 t P _ Hrn)). }
    destruct (pop ++ (s, v0) :: stk) as [|top k] eqn:Ek; [destruct pop; discriminate|].
    eapply rp_reduce with (pop := pop); [rewrite <- Ek; reflexivity| |exact Hru| |rewrite Ep; exact Eh|exact Hgo|exact HR].
    + rewrite Hb. assert (fst top = s') as ->; auto. rewrite <- Es. destruct pop; cbn in *; injection Ek; intros; subst; auto.
    + now rewrite Lp, map_length.
  - intros s b Hs x x1 vs Ev v0 stk inp Hb. cbn in Ev. injection Ev as <- <-. exists []. cbn. splits; auto.
  - intros s Y q Ys tr ts b s' HK IH He HKs IHs Hs x x1 vs Ev v0 stk inp Hb. cbn [eval_list] in Ev.
    destruct (eval h tr x) as [x2 v|? ?|] eqn:Et; try discriminate. destruct (eval_list h ts x2) as [x3 vs'|? ?|] eqn:El; try discriminate. injection Ev as -> <-.
    destruct (au_edge g p A _ _ _ He) as (Hq & _).
    destruct (IHs Hq _ _ _ El v ((s, v0) :: stk) inp Hb) as (pop & Lp & Ep & Es & Hrun).
    exists (pop ++ [(q, v)]). splits.
    + rewrite app_length. cbn. lia.
    + rewrite map_app, rev_app_distr. cbn. now rewrite Ep.
    + rewrite <- Es. now destruct pop.
    + intros x' root HR. cbn [flat_map]. rewrite <- app_assoc in HR |- *. cbn [app] in HR. eapply IH; eauto. rewrite <- Hb. symmetry. apply la_at_app.
Qed.

Theorem kept_rparse tr x x' v root v0 : kept 0 (g_start g) tr 0 -> eval h tr x = EvOk x' v -> h_accept h v = Some root ->
  rparse [(0, v0)] x (yield tr) x' root.
Proof.
  pose proof (au_pos g p A) as H0. intros HK Ev Ha. remember (g_start g) as S0 eqn:ES. inversion HK as [s Y a m b q He Hr|s r ru ts b s' Hru HKs Hra]; subst.
  - exfalso. destruct (edge_sym g W p A _ _ _ He) as (_ & _ & _ & ?). congruence.
  - rewrite eval_node in Ev. destruct (eval_list h ts x) as [x2 vs|? ?|] eqn:El; try discriminate. unfold finish in Ev. destruct (h_reduce h r vs x2) as [[x3 [v3|e]]|] eqn:Eh; try discriminate. injection Ev as -> ->.
    destruct (proj2 kept_runs _ _ _ _ _ HKs H0 _ _ _ El v0 [] [] eq_refl) as (pop & Lp & Ep & Es & Hrun). cbn [yield]. rewrite app_nil_r in Hrun. apply Hrun.
    assert (Hrn : r < List.length (g_rules g)) by (apply nth_error_Some; congruence). pose proof (grule_nth g _ _ Hru) as Er.
    assert (Hgo : In (mkAct (r_lhs ru) Accept) (acts p3 0)).
    { rewrite <- Er in *. apply (accept_edge g p p3 p4 t P 0 _ H0 (lhs_nt g p p3 p4 t P _ Hrn) (lhs_dflt g p p3 p4 t P _ Hrn)). auto. }
    destruct (pop ++ [(0, v0)]) as [|top k] eqn:Ek; [destruct pop; discriminate|].
    eapply rp_accept with (pop := pop); [rewrite <- Ek; reflexivity| |exact Hru| |rewrite Ep; exact Eh|exact Hgo|exact Ha].
    + assert (fst top = s') as ->; auto. rewrite <- Es. destruct pop; cbn in *; injection Ek; intros; subst; auto.
    + now rewrite Lp, map_length.
Qed.
End Kept.

Section Items.
Context (g : grammar) (p p3 p4 : pst) (t : tables) (P : Pipe g p p3 p4 t).
Let W := pp_wf _ _ _ _ _ P.
Let A := pp_aut _ _ _ _ _ P.
Notation ns := (List.length (p_states p)).
Context {M : Type}.
Notation kept := (kept g p p3 (M := M)).
Notation kept_all := (kept_all g p p3 (M := M)).

(** A state is entered by one symbol only. *)
Lemma edge_same s Y Z q : edge g p s Y q -> edge g p s Z q -> Y = Z.
Proof.
  intros H1 H2. destruct (au_edge g p A _ _ _ H1) as (_ & k & Hk & HY). pose proof (au_goto g p A _ _ _ _ H1 Hk HY) as Hi.
  destruct (au_back g p A _ _ _ _ H2 Hi) as (k0 & _ & HZ & E); [destruct k; cbn; lia|]. destruct k as [r d], k0 as [r0 d0]. unfold kadv in E. cbn in E. injection E as <- <-. congruence.
Qed.

Lemma kept_tok s Y a q : s < ns -> 0 < a < g_nterm g -> edge g p s Y q -> ract g (acts p3 s) a (Shift q) ->
  exists b, falls_to g a b /\ b < g_nterm g /\ member g b Y.
Proof.
  intros Hs Ha He Hr. destruct (ract_raw g p p3 p4 t P s a _ Hs Hr) as (b & Hab & R); [discriminate|].
  inversion R as [Z q' m' HeZ Hcov| |]; subst. rewrite <- (edge_same _ _ _ _ He HeZ) in Hcov.
  assert (Ht : tokenish g b) by (eapply (falls_tokenish g p p3 p4 t P a b); auto; left; lia).
  assert (Hb : b < g_nterm g) by (pose proof (raw_le_dflt g p p3 p4 t P _ _ _ R); unfold tokenish in Ht; lia).
  exists b. splits; auto. eapply (covers_member g p p3 p4 t P); eauto. apply (edge_sym g W p A _ _ _ He).
Qed.

Lemma kept_derives :
  (forall s Y (tr : tree M) b, kept s Y tr b -> s < ns -> toks_ok g (yield tr) -> derives g (tok_match g) Y tr) /\
  (forall s Ys (ts : list (tree M)) b s', kept_all s Ys ts b s' -> s < ns -> toks_ok g (flat_map yield ts) -> derives_all g (tok_match g) Ys ts).
Proof.
  apply kept_both.
  - intros s Y a m b q He Hr Hs HO. constructor. destruct (kept_tok s Y a q Hs) as (c & Hc & _ & HM); auto; [apply (HO a m); now left|]. left. eauto.
  - intros s r ru ts b s' Hru _ IH _ Hs HO. econstructor; eauto.
  - constructor.
  - intros s Y q Ys tr ts b s' _ IH He _ IHs Hs HO. cbn in HO. apply toks_app in HO as [O1 O2]. constructor; auto. apply IHs; auto. apply (au_edge g p A _ _ _ He).
Qed.

(** ** Items on the way *)
(** What the state expects next *)
Definition wants (s X : nat) : Prop := (s = 0 /\ X = g_start g) \/ exists k, item p s k /\ kpost g k = Some X.

Lemma wants_range s Y : wants s Y -> s < ns.
Proof. intros [[-> _]|(k & H & _)]; [apply (au_pos g p A)|eapply au_range; eauto]. Qed.
Lemma rule_step s k Y r ru : item p s k -> kpost g k = Some Y -> nth_error (g_rules g) r = Some ru -> r_lhs ru = Y -> kstep g k (r, 0).
Proof.
  intros Hi HY Hru HL. exists Y. splits; auto. cbn. apply in_rules_of. eauto.
Qed.
Lemma wants_item s r ru : wants s (r_lhs ru) -> nth_error (g_rules g) r = Some ru -> item p s (r, 0).
Proof.
  intros [[-> HS]|(k & Hi & HY)] Hru.
  - apply (au_start g p A). apply in_rules_of. eauto.
  - eapply (au_close g p A); eauto. eapply rule_step; eauto.
Qed.

(** A sequence of symbols leads from one state to another. *)
Inductive walk : nat -> list nat -> nat -> Prop :=
| wk_nil s : walk s [] s
| wk_cons s Y q Ys s' : edge g p s Y q -> walk q Ys s' -> walk s (Y :: Ys) s'.
Lemma walk_app s Ys Zs s2 : walk s (Ys ++ Zs) s2 <-> exists s1, walk s Ys s1 /\ walk s1 Zs s2.
Proof.
  revert s. induction Ys as [|Y Ys IH]; intros s; cbn.
  - split; [eauto using wk_nil|]. intros (s1 & H1 & H2). inversion H1; subst; auto.
  - split.
    + intros H. inversion H as [|? ? q ? ? He H']; subst. apply IH in H' as (s1 & H1 & H2). exists s1. split; auto. econstructor; eauto.
    + intros (s1 & H1 & H2). inversion H1 as [|? ? q ? ? He H']; subst. econstructor; eauto. apply IH. eauto.
Qed.
Lemma walk_fun s Ys s1 s2 : walk s Ys s1 -> walk s Ys s2 -> s1 = s2.
Proof. intros H. revert s2. induction H as [|s Y q Ys s' He H IH]; intros s2 H2; inversion H2 as [|? ? q' ? ? He' H']; subst; auto. apply IH. now rewrite (au_fun g p A _ _ _ _ He He'). Qed.

Lemma kept_walk s Ys (ts : list (tree M)) b s' : kept_all s Ys ts b s' -> walk s Ys s'.
Proof. revert s ts. induction Ys as [|Y Ys IH]; intros s ts H; inversion H; subst; econstructor; eauto. Qed.
Lemma kept_all_app s Ys Zs (ts : list (tree M)) b s2 : kept_all s (Ys ++ Zs) ts b s2 -> exists us vs s1, ts = us ++ vs /\
  List.length us = List.length Ys /\ kept_all s Ys us (la_at (flat_map yield vs) b) s1 /\ kept_all s1 Zs vs b s2.
Proof.
  revert s ts. induction Ys as [|Y Ys IH]; intros s ts H; cbn in H.
  - exists [], ts, s. splits; auto. constructor.
  - inversion H as [|? ? q ? tr ts' ? ? K He K']; subst. destruct (IH _ _ K') as (us & vs & s1 & -> & L & K1 & K2).
    exists (tr :: us), vs, s1. splits; auto; [cbn; lia|]. econstructor; eauto. now rewrite la_at_two, <- flat_map_app.
Qed.
Lemma kept_all_len s Ys (ts : list (tree M)) b s2 : kept_all s Ys ts b s2 -> List.length ts = List.length Ys.
Proof. revert s ts. induction Ys as [|Y Ys IH]; intros s ts H; inversion H; subst; cbn; eauto. Qed.

Lemma walk_item r : forall Ys s d s', walk s Ys s' -> item p s (r, d) -> (exists Zs, map fst (skipn d (r_rhs (grule g r))) = Ys ++ Zs) -> item p s' (r, d + List.length Ys).
Proof.
  induction Ys as [|Y Ys IH]; intros s d s' H Hi (Zs & E); inversion H; subst; cbn; [now rewrite Nat.add_0_r|].
  destruct (skipn d (r_rhs (grule g r))) as [|[Y' al] l] eqn:Es; [discriminate|]. cbn in E. injection E as -> E.
  assert (Hn : nth_error (r_rhs (grule g r)) d = Some (Y, al)) by (rewrite <- (firstn_skipn d (r_rhs (grule g r))), Es, nth_error_app2 by (rewrite firstn_length; lia);
    rewrite firstn_length, Nat.min_l by (apply Nat.lt_le_incl, Nat.nle_gt; intros HL; rewrite skipn_all2 in Es by auto; discriminate); now rewrite Nat.sub_diag).
  rewrite Nat.add_succ_r, <- Nat.add_succ_l. eapply IH; eauto.
  - change (r, S d) with (kadv (r, d)). eapply (au_goto g p A); eauto. unfold kpost. cbn. now rewrite Hn.
  - exists Zs. rewrite (skip_nth _ _ _ Hn) in Es. injection Es as Es. rewrite <- E. f_equal. exact Es.
Qed.

Lemma walk_spread r b : forall Ys s d s', walk s Ys s' -> spread g p s (r, d) b -> (exists Zs, map fst (skipn d (r_rhs (grule g r))) = Ys ++ Zs) -> spread g p s' (r, d + List.length Ys) b.
Proof.
  induction Ys as [|Y Ys IH]; intros s d s' H Hi (Zs & E); inversion H; subst; cbn; [now rewrite Nat.add_0_r|].
  destruct (nth_error (r_rhs (grule g r)) d) as [[Y' al]|] eqn:Hn; [|exfalso; apply nth_error_None in Hn; rewrite skipn_all2 in E by auto; discriminate].
  rewrite (skip_nth _ _ _ Hn) in E. cbn [map fst app] in E. injection E as -> E.
  rewrite Nat.add_succ_r, <- Nat.add_succ_l. eapply IH; eauto.
  change (r, S d) with (kadv (r, d)). eapply sp_goto; eauto. unfold kpost. cbn. now rewrite Hn.
Qed.

Lemma ract_own s b d d' : s < ns -> b < g_nterm g -> raw g p s b d' -> ract g (acts p3 s) b d -> d <> Error ->
  In (mkAct b d) (acts p3 s) /\ ~ In (mkAct b Error) (acts p3 s).
Proof.
  intros Hs Hb R H Hd. pose proof (raw_entry g p p3 p4 t P s b d' Hs Hb R) as HE. inversion H; subst; auto; contradiction.
Qed.
Lemma tok_not_start b : b < g_nterm g -> b <> g_start g.
Proof. intros Hb ->. pose proof (nonterm_ge g W _ (proj1 (wg_start g W))). lia. Qed.

Hypothesis OW : forall i u v, some_prec g (i, u) -> some_prec g (i, v) -> u = v.

(** The token [b] binds tighter than the rule [r], or the rule tighter than the token. *)
Definition gtok_over (b r : nat) : Prop := exists i u j v, sy_prec (gsym g b) = Some (i, u) /\ r_prec (grule g r) = Some (j, v) /\ (j < i \/ i = j /\ u = ARight).
Definition grule_over (r b : nat) : Prop := exists i u j v, sy_prec (gsym g b) = Some (i, u) /\ r_prec (grule g r) = Some (j, v) /\ (i < j \/ i = j /\ u = ALeft).

Lemma went_on s b q r : s < ns -> b < g_nterm g -> ract g (acts p3 s) b (Shift q) -> raw g p s b (Reduce r) -> gtok_over b r.
Proof.
  intros Hs Hb H R. destruct (ract_own _ _ _ _ Hs Hb R H) as [Hin _]; [discriminate|].
  eapply (shift_won g p p3 OW s (pp_settled _ _ _ _ _ P s Hs)); eauto. now apply tok_not_start.
Qed.
Lemma closed_off s b q r : s < ns -> b < g_nterm g -> ract g (acts p3 s) b (Reduce r) -> raw g p s b (Shift q) -> grule_over r b.
Proof.
  intros Hs Hb H R. destruct (ract_own _ _ _ _ Hs Hb R H) as [Hin HE]; [discriminate|].
  eapply (reduce_won g p p3 OW s (pp_settled _ _ _ _ _ P s Hs)); eauto. now apply tok_not_start.
Qed.

Lemma node_inv s Y i ts b ru : kept s Y (TNode i ts) b -> nth_error (g_rules g) i = Some ru ->
  Y = r_lhs ru /\ exists s', kept_all s (map fst (r_rhs ru)) ts b s' /\ ract g (acts p3 s') b (Reduce i).
Proof. intros H Hru. inversion H; subst. assert (ru0 = ru) by congruence. subst. eauto. Qed.
Lemma walk_range s Ys s' : walk s Ys s' -> s < ns -> s' < ns.
Proof. induction 1 as [|s Y q Ys s' He H IH]; auto. intros _. apply IH. apply (au_edge g p A _ _ _ He). Qed.
Lemma post_at i ru d Xs Y Zs : nth_error (g_rules g) i = Some ru -> map fst (r_rhs ru) = Xs ++ Y :: Zs -> List.length Xs = d -> kpost g (i, d) = Some Y /\ krest g (i, d) = Zs.
Proof.
  intros Hru E <-. unfold kpost, krest. cbn [fst snd]. rewrite (grule_nth g _ _ Hru).
  apply map_eq_app in E as (l1 & l2 & -> & <- & E2). destruct l2 as [|[Y' al] l2]; [discriminate|]. cbn in E2. injection E2 as -> <-.
  rewrite map_length. split.
  - rewrite nth_error_app2, Nat.sub_diag by lia. reflexivity.
  - rewrite skipn_app, skipn_all2 by lia. replace (S (List.length l1) - List.length l1) with 1 by lia. reflexivity.
Qed.
Lemma walk_in i ru s s' Xs Zs : nth_error (g_rules g) i = Some ru -> map fst (r_rhs ru) = Xs ++ Zs -> walk s Xs s' -> item p s (i, 0) -> item p s' (i, List.length Xs).
Proof.
  intros Hru E Hw Hi. change (List.length Xs) with (0 + List.length Xs). eapply walk_item; eauto. exists Zs. rewrite (grule_nth g _ _ Hru). exact E.
Qed.
Lemma covers_of b Z : member g b Z -> covers g Z b.
Proof. unfold covers. intros [[-> Ht]|(ms & Hk & Hin)]; [unfold is_term in Ht; now rewrite Ht|now rewrite Hk]. Qed.

(** A rule that ends in [A0] and is closed before a token that could go on with [A0] *)
Lemma g_right s Y i ts b ru al A0 j rj Z be : wants s Y -> kept s Y (TNode i ts) b -> nth_error (g_rules g) i = Some ru -> map fst (r_rhs ru) = al ++ [A0] ->
  nth_error (g_rules g) j = Some rj -> r_lhs rj = A0 -> map fst (r_rhs rj) = A0 :: Z :: be -> b < g_nterm g -> member g b Z -> grule_over i b.
Proof.
  intros Hw HK Hru E Hrj HL Ej Hb HM. pose proof (wants_range _ _ Hw) as Hs. destruct (node_inv _ _ _ _ _ _ HK Hru) as (-> & s' & Hall & Hr).
  apply kept_walk in Hall. pose proof (walk_range _ _ _ Hall Hs) as Hs'. rewrite E in Hall. apply walk_app in Hall as (s1 & W1 & W2).
  pose proof (wants_item s i ru Hw Hru) as Hi. pose proof (walk_in i ru _ _ al [A0] Hru E W1 Hi) as Hi1.
  destruct (post_at i ru _ al A0 [] Hru E eq_refl) as [HP _].
  assert (Hj : item p s1 (j, 0)) by (eapply (au_close g p A); eauto; eapply rule_step; eauto).
  pose proof (walk_in j rj s1 s' [A0] (Z :: be) Hrj Ej W2 Hj) as Hj1.
  destruct (post_at j rj 1 [A0] Z be Hrj Ej eq_refl) as [HZ _]. destruct (au_next g p A _ _ _ Hj1 HZ) as [q Hq].
  eapply closed_off with (q := q); eauto. eapply raw_shift; eauto. now apply covers_of.
Qed.
(** A rule that is closed before a token with which a longer rule goes on *)
Lemma g_short s Y i ts b ru j rj Z be : wants s Y -> kept s Y (TNode i ts) b -> nth_error (g_rules g) i = Some ru ->
  nth_error (g_rules g) j = Some rj -> r_lhs rj = r_lhs ru -> map fst (r_rhs rj) = map fst (r_rhs ru) ++ Z :: be -> b < g_nterm g -> member g b Z -> grule_over i b.
Proof.
  intros Hw HK Hru Hrj HL Ej Hb HM. pose proof (wants_range _ _ Hw) as Hs. destruct (node_inv _ _ _ _ _ _ HK Hru) as (-> & s' & Hall & Hr).
  apply kept_walk in Hall. pose proof (walk_range _ _ _ Hall Hs) as Hs'. rewrite <- HL in Hw. pose proof (wants_item s j rj Hw Hrj) as Hj.
  pose proof (walk_in j rj _ _ _ _ Hrj Ej Hall Hj) as Hj1. destruct (post_at j rj _ _ Z be Hrj Ej eq_refl) as [HZ _]. destruct (au_next g p A _ _ _ Hj1 HZ) as [q Hq].
  eapply closed_off with (q := q); eauto. eapply raw_shift; eauto. now apply covers_of.
Qed.

(** The tree [c] starts with [u]. *)
Inductive gleads (u : tree M) : tree M -> Prop :=
| gl_here : gleads u u
| gl_node r c us : gleads u c -> gleads u (TNode r (c :: us)).
Lemma lead_state u c : gleads u c -> forall s Y b, kept s Y c b -> wants s Y -> exists Y' b', kept s Y' u b' /\ wants s Y'.
Proof.
  induction 1 as [|r c us H IH]; intros s Y b HK Hw; [eauto|]. inversion HK as [|? ? ru ? ? s' Hru Hall Hr]; subst.
  pose proof (wants_item s r ru Hw Hru) as Hi. remember (map fst (r_rhs ru)) as Ys eqn:Ex. inversion Hall as [|? X1 q Xs ? ? ? ? K1 He K2]; subst.
  match goal with E : _ = map fst (r_rhs ru) |- _ => rename E into Ex | E : map fst (r_rhs ru) = _ |- _ => symmetry in E; rename E into Ex end.
  eapply IH; eauto. right. exists (r, 0). split; auto. symmetry in Ex. apply (post_at r ru 0 [] X1 Xs Hru Ex eq_refl).
Qed.

Lemma reduce_raw s i ru a : nth_error (g_rules g) i = Some ru -> spread g p s (i, List.length (r_rhs ru)) a -> a < g_nterm g -> raw g p s a (Reduce i).
Proof. intros Hru H Ha. constructor; auto. apply (look_of g p A). unfold rlen. now rewrite (grule_nth g _ _ Hru). Qed.
Lemma spread_in i ru s s' Xs Zs a : nth_error (g_rules g) i = Some ru -> map fst (r_rhs ru) = Xs ++ Zs -> walk s Xs s' -> spread g p s (i, 0) a -> spread g p s' (i, List.length Xs) a.
Proof.
  intros Hru E Hw Hi. change (List.length Xs) with (0 + List.length Xs). eapply walk_spread; eauto. exists Zs. rewrite (grule_nth g _ _ Hru). exact E.
Qed.
Lemma first_of_tok a Z be : member g a Z -> first_all g a (Z :: be).
Proof. intros H. now apply f_here, f_term. Qed.

(** A token with which [A0] goes on though a rule ending in [A0] could be closed *)
Lemma g_left s Y i ts c b ru al A0 j rj Z be u a m us : wants s Y -> kept s Y (TNode i (ts ++ [c])) b -> nth_error (g_rules g) i = Some ru ->
  r_lhs ru = A0 -> map fst (r_rhs ru) = al ++ [A0] -> gleads (TNode j (u :: TTok a m :: us)) c ->
  nth_error (g_rules g) j = Some rj -> r_lhs rj = A0 -> map fst (r_rhs rj) = A0 :: Z :: be -> a < g_nterm g -> member g a Z -> gtok_over a i.
Proof.
  intros Hw HK Hru HLi E Hlead Hrj HL Ej Ha HM. pose proof (wants_range _ _ Hw) as Hs. destruct (node_inv _ _ _ _ _ _ HK Hru) as (-> & s' & Hall & Hr).
  rewrite E in Hall. apply kept_all_app in Hall as (us1 & us2 & s1 & Ets & Lu & K1 & K2). inversion K2 as [|? ? q1 ? c' ts' ? ? Kc Hq1 K3]; subst us2. inversion K3; subst.
  apply app_inj_tail in Ets as [-> ->]. pose proof (kept_walk _ _ _ _ _ K1) as W1.
  pose proof (wants_item s i ru Hw Hru) as Hi. pose proof (walk_in i ru _ _ al _ Hru E W1 Hi) as Hi1. destruct (post_at i ru _ al (r_lhs ru) [] Hru E eq_refl) as [HP _].
  destruct (lead_state _ _ Hlead _ _ _ Kc) as (Y' & b' & Kj & Hwj); [right; eauto|].
  destruct (node_inv _ _ _ _ _ _ Kj Hrj) as (-> & s2 & Kall & _). rewrite Ej in Kall. inversion Kall as [|? ? q ? ? ? ? ? Ku He K4]; subst. inversion K4 as [|? ? q2 ? ? ? ? ? Ka He2 K5]; subst.
  inversion Ka as [? ? ? ? ? q3 He3 Hra|]; subst.
  assert (Hj : item p s (j, 0)) by (rewrite <- HL in Hw; now apply wants_item with (ru := rj)).
  destruct (post_at j rj 0 [] _ _ Hrj Ej eq_refl) as [HPj HRj].
  assert (Sp : spread g p s (i, 0) a) by (eapply sp_first; [exact Hj|eapply rule_step; eauto|rewrite HRj; now apply first_of_tok]).
  assert (W2 : walk s (al ++ [r_lhs ru]) q) by (apply walk_app; exists s1; split; auto; econstructor; eauto; constructor).
  pose proof (spread_in i ru s q (al ++ [r_lhs ru]) [] a Hru ltac:(now rewrite app_nil_r) W2 Sp) as Sp2. rewrite <- E, map_length in Sp2.
  eapply (went_on q a q3); [exact (walk_range _ _ _ W2 Hs)|auto|exact Hra|eapply reduce_raw; eauto].
Qed.
(** The dangling else: a token that goes on with the inner rule though the inner short rule could
    be closed *)
Lemma g_dangling s Y k l c r b rk al A0 rest j rj Z be vs a m ws i ru : wants s Y -> kept s Y (TNode k (l ++ c :: r)) b -> nth_error (g_rules g) k = Some rk ->
  r_lhs rk = A0 -> map fst (r_rhs rk) = al ++ A0 :: rest -> List.length l = List.length al -> gleads (TNode j (vs ++ TTok a m :: ws)) c ->
  nth_error (g_rules g) j = Some rj -> r_lhs rj = A0 -> map fst (r_rhs rj) = al ++ A0 :: Z :: be -> List.length vs = S (List.length al) ->
  nth_error (g_rules g) i = Some ru -> r_lhs ru = A0 -> map fst (r_rhs ru) = al ++ [A0] -> a < g_nterm g -> member g a Z -> gtok_over a i.
Proof.
  intros Hw HK Hrk HLk Ek Ll Hlead Hrj HLj Ej Lv Hru HLi Ei Ha HM. pose proof (wants_range _ _ Hw) as Hs. destruct (node_inv _ _ _ _ _ _ HK Hrk) as (-> & s' & Hall & Hr).
  rewrite Ek in Hall. apply kept_all_app in Hall as (us1 & us2 & s1 & Ets & Lu & K1 & K2). apply app_split_len in Ets as [-> <-]; [|congruence].
  inversion K2 as [|? ? q1 ? c' ts' ? ? Kc Hq1 K3]; subst c' ts'. pose proof (kept_walk _ _ _ _ _ K1) as W1. rewrite HLk in Hw. subst A0.
  assert (Hj : item p s (j, 0)) by (rewrite <- HLj in Hw; now apply wants_item with (ru := rj)).
  pose proof (walk_in j rj _ _ al _ Hrj Ej W1 Hj) as Hj1. destruct (post_at j rj _ al _ _ Hrj Ej eq_refl) as [HPj HRj].
  assert (Sp : spread g p s1 (i, 0) a) by (eapply sp_first; [exact Hj1|eapply rule_step; eauto; congruence|rewrite HRj; now apply first_of_tok]).
  destruct (lead_state _ _ Hlead _ _ _ Kc) as (Y' & b' & Kj & Hwj); [right; eauto|].
  destruct (node_inv _ _ _ _ _ _ Kj Hrj) as (-> & s2 & Kall & _). rewrite Ej in Kall. replace (al ++ r_lhs rk :: Z :: be) with ((al ++ [r_lhs rk]) ++ Z :: be) in Kall by now rewrite <- app_assoc.
  apply kept_all_app in Kall as (us3 & us4 & s3 & Eus & L3 & K4 & K5). apply app_split_len in Eus as [-> <-]; [|rewrite app_length in L3; cbn in L3; lia].
  inversion K5 as [|? ? q2 ? ? ? ? ? Ka He2 K6]; subst. inversion Ka as [? ? ? ? ? q3 He3 Hra|]; subst.
  pose proof (kept_walk _ _ _ _ _ K4) as W4. pose proof (spread_in i ru s1 s3 (al ++ [r_lhs rk]) [] a Hru ltac:(now rewrite app_nil_r) W4 Sp) as Sp2. rewrite <- Ei, map_length in Sp2.
  eapply (went_on s3 a q3); [exact (walk_range _ _ _ W4 (walk_range _ _ _ W1 Hs))|auto|exact Hra|eapply reduce_raw; eauto].
Qed.

(** The tree [u] occurs in the other one; [b] is the token after [u] if [b'] comes after the whole. *)
Inductive gocc (u : tree M) (b : nat) : tree M -> nat -> Prop :=
| go_here : gocc u b u b
| go_node r l c rs b' : gocc u b c (la_at (flat_map yield rs) b') -> gocc u b (TNode r (l ++ c :: rs)) b'.
Lemma occ_state u b tr b' : gocc u b tr b' -> forall s Y, kept s Y tr b' -> wants s Y -> exists s' Y', kept s' Y' u b /\ wants s' Y'.
Proof.
  induction 1 as [|r l c rs b' H IH]; intros s Y HK Hw; [eauto|]. inversion HK as [|? ? ru ? ? s' Hru Hall Hr]; subst.
  pose proof (kept_all_len _ _ _ _ _ Hall) as HL. rewrite app_length in HL. cbn in HL.
  rewrite <- (firstn_skipn (List.length l) (map fst (r_rhs ru))) in Hall. apply kept_all_app in Hall as (us & vs & s1 & Ets & Lu & K1 & K2).
  rewrite firstn_length, Nat.min_l in Lu by lia. apply app_split_len in Ets as [-> <-]; auto.
  remember (skipn (List.length us) (map fst (r_rhs ru))) as Ys eqn:Ex. inversion K2 as [|? X1 q Xs ? ? ? ? Kc He K3]; subst. eapply IH; eauto. right.
  match goal with E : _ = skipn _ _ |- _ => rename E into Ex | E : skipn _ _ = _ |- _ => symmetry in E; rename E into Ex end.
  assert (E : map fst (r_rhs ru) = firstn (List.length us) (map fst (r_rhs ru)) ++ X1 :: Xs) by (rewrite Ex; symmetry; apply firstn_skipn).
  exists (r, List.length (firstn (List.length us) (map fst (r_rhs ru)))). split; [|eapply post_at; eauto].
  eapply walk_in; eauto using kept_walk, wants_item.
Qed.
End Items.
