(** The automaton of a grammar of operators: after a token it is within one rule; after an operand
    within one rule or at an infix or postfix operator.  So a tree in which operators are nested as
    their precedences say is the one the resolved action lists decide on (C41). *)
From Verif Require Import Base Syntax BaseFacts FrontEnd First States Actions Tables Runtime
  PackFacts Spec WfGrammar FirstFacts ClosureFacts StatesFacts DfsFacts FollowFacts AutoFacts LalrFacts ActFacts CompFacts GroupFacts
  TabFacts LookFacts PipeFacts RunFacts SoundFacts AbsFacts HaltFacts TermFacts CompleteFacts RefFacts FrontFacts DeclSpec DeclFacts GramFacts LangFacts FaultDuel FaultAct Claims8 KeptFacts.

Section Op.
Context (g : grammar) (p p3 p4 : pst) (t : tables) (P : Pipe g p p3 p4 t).
Let W := pp_wf _ _ _ _ _ P.
Let A := pp_aut _ _ _ _ _ P.
Notation ns := (List.length (p_states p)).
Notation nr := (List.length (g_rules g)).
Hypothesis OW : forall i u v, some_prec g (i, u) -> some_prec g (i, v) -> u = v.
Context {M : Type}.

(** *** What is decided *)
Lemma shift_dec s a q : s < ns -> a < g_nterm g -> raw g p s a (Shift q) -> (forall r, raw g p s a (Reduce r) -> gtok_over g a r) -> ract g (acts p3 s) a (Shift q).
Proof.
  intros Hs Ha R HR. pose proof (tok_not_start g p p3 p4 t P a Ha) as Na. pose proof (pp_settled _ _ _ _ _ P s Hs) as S3.
  destruct (survivor_max g p p3 s S3 a _ Na R) as (c & Rc & Hin & Hl & _).
  assert (Ec : c = Shift q).
  { destruct c as [q'| |r'| | | | | | |]; try contradiction.
    - destruct (winner g p p3 OW s S3 a _ _ Na Hin Logic.I R) as [H|(i & u & j & v & E1 & E2 & H)]; auto. cbn in E1, E2. rewrite E1 in E2. injection E2 as <- <-. destruct H as [H|[_ []]]. lia.
    - inversion Rc; subst. congruence.
    - destruct (winner g p p3 OW s S3 a _ _ Na Hin Logic.I R) as [H|(i & u & j & v & E1 & E2 & H)]; auto. cbn in E1, E2.
      destruct (HR r' Rc) as (i' & u' & j' & v' & F1 & F2 & F). rewrite E1 in F2. rewrite E2 in F1. injection F1 as -> ->. injection F2 as -> ->. exfalso. destruct H as [H|[H1 H2]], F as [F|[F1 F2]]; try lia. congruence. }
  subst c. apply ra_own; auto. intros HE. destruct (error_src g p p3 p4 t P s a Hs HE) as (_ & (r & Rr & l & c & Ht & Hr) & _).
  destruct (HR r Rr) as (i' & u' & j' & v' & F1 & F2 & F). rewrite Ht in F1. rewrite Hr in F2. injection F1 as <- <-. injection F2 as <- <-. destruct F as [F|[_ F]]; [lia|discriminate].
Qed.
Lemma reduce_dec s b r : s < ns -> b < g_nterm g -> raw g p s b (Reduce r) -> (forall r', raw g p s b (Reduce r') -> r' = r) -> (forall q, raw g p s b (Shift q) -> grule_over g r b) ->
  ract g (acts p3 s) b (Reduce r).
Proof.
  intros Hs Hb R HR HS. pose proof (tok_not_start g p p3 p4 t P b Hb) as Nb. pose proof (pp_settled _ _ _ _ _ P s Hs) as S3.
  destruct (survivor_max g p p3 s S3 b _ Nb R) as (c & Rc & Hin & Hl & _).
  assert (Ec : c = Reduce r).
  { destruct c as [q'| |r'| | | | | | |]; try contradiction.
    - destruct (winner g p p3 OW s S3 b _ _ Nb Hin Logic.I R) as [H|(i & u & j & v & E1 & E2 & H)]; auto. cbn in E1, E2.
      destruct (HS q' Rc) as (i' & u' & j' & v' & F1 & F2 & F). rewrite E1 in F1. rewrite E2 in F2. injection F1 as <- <-. injection F2 as <- <-. exfalso. destruct H as [H|[H1 H2]], F as [F|[F1 F2]]; try lia. congruence.
    - inversion Rc; subst. congruence.
    - now rewrite (HR r' Rc). }
  subst c. apply ra_own; auto. intros HE. destruct (error_src g p p3 p4 t P s b Hs HE) as ((q & Rq) & (r' & Rr & l & c & Ht & Hr) & _). rewrite (HR r' Rr) in Hr.
  destruct (HS q Rq) as (i' & u' & j' & v' & F1 & F2 & F). rewrite Ht in F1. rewrite Hr in F2. injection F1 as <- <-. injection F2 as <- <-. destruct F as [F|[_ F]]; [lia|discriminate].
Qed.

(** *** Grammars of operators *)
Definition rh (r : nat) : list nat := map fst (r_rhs (grule g r)).
Definition operand_or_tok (n Y : nat) : Prop := Y = n \/ is_term g Y.
Record opgram (r0 n : nat) : Prop := {
  og_r0 : r0 < nr;
  og_start : r_lhs (grule g r0) = g_start g;
  og_rh0 : rh r0 = [n];
  og_nt : kind_at g n = Some KNonTerm;
  og_new : n <> g_start g;
  og_lhs : forall r, r < nr -> r <> r0 -> r_lhs (grule g r) = n;
  og_ne : forall r, r < nr -> r <> r0 -> rh r <> [] /\ rh r <> [n];
  og_syms : forall r Y, r < nr -> r <> r0 -> In Y (rh r) -> operand_or_tok n Y;
  og_adj : forall r d, r < nr -> r <> r0 -> nth_error (rh r) d = Some n -> nth_error (rh r) (S d) <> Some n;
  og_head : forall r r' a, r < nr -> r' < nr -> r <> r0 -> r' <> r0 -> a <> n -> nth_error (rh r) 0 = Some a -> nth_error (rh r') 0 = Some a -> r = r';
  og_infix : forall r r' a, r < nr -> r' < nr -> r <> r0 -> r' <> r0 -> nth_error (rh r) 0 = Some n -> nth_error (rh r) 1 = Some a -> nth_error (rh r') 0 = Some n -> nth_error (rh r') 1 = Some a -> r = r';
  og_inner : forall r r' a d, r < nr -> r' < nr -> r <> r0 -> r' <> r0 -> nth_error (rh r) 0 = Some n -> nth_error (rh r) 1 = Some a -> nth_error (rh r') (S d) = Some n -> nth_error (rh r') (S (S d)) = Some a -> False }.

Context (r0 n : nat) (O : opgram r0 n).

Lemma kpost_rh k : kpost g k = nth_error (rh (fst k)) (snd k).
Proof. unfold kpost, rh. now rewrite nth_error_map. Qed.
Lemma krest_rh k : krest g k = skipn (S (snd k)) (rh (fst k)).
Proof. unfold krest, rh. symmetry. apply skipn_map. Qed.
Lemma n_term : ~ is_term g n.
Proof. unfold is_term. rewrite (og_nt _ _ O). discriminate. Qed.
Lemma in_n r : In r (rules_of g n) <-> r < nr /\ r <> r0.
Proof.
  rewrite in_rules_of. split.
  - intros (ru & Hr & HL). assert (r < nr) by (apply nth_error_Some; congruence). split; auto. intros ->. pose proof (og_start _ _ O) as HS. rewrite (grule_nth g _ _ Hr) in HS. pose proof (og_new _ _ O). congruence.
  - intros [Hr N]. exists (grule g r). split; [now apply nth_grule|]. now apply (og_lhs _ _ O).
Qed.
Lemma in_start r : In r (rules_of g (g_start g)) <-> r = r0.
Proof.
  rewrite in_rules_of. split.
  - intros (ru & Hr & HL). destruct (Nat.eq_dec r r0) as [|N]; auto. exfalso. assert (r < nr) by (apply nth_error_Some; congruence). pose proof (og_lhs _ _ O r H N) as E. rewrite (grule_nth g _ _ Hr) in E. pose proof (og_new _ _ O). congruence.
  - intros ->. exists (grule g r0). split; [apply nth_grule, O|]. apply O.
Qed.
Lemma no_rules_term a r : is_term g a -> ~ In r (rules_of g a).
Proof.
  intros Ha H. apply in_rules_of in H as (ru & Hr & HL). assert (Lr : r < nr) by (apply nth_error_Some; congruence). pose proof (lhs_nt g p p3 p4 t P r Lr) as HN.
  rewrite (grule_nth g _ _ Hr), HL in HN. unfold is_term in Ha. congruence.
Qed.
(** What follows the dot *)
Lemma post_kind k Y : kvalid g k -> kpost g k = Some Y -> Y = n \/ (fst k <> r0 /\ is_term g Y).
Proof.
  intros [V _] H. rewrite kpost_rh in H. destruct (Nat.eq_dec (fst k) r0) as [E|N].
  - rewrite E, (og_rh0 _ _ O) in H. destruct (snd k) as [|[|?]]; cbn in H; try discriminate. left. congruence.
  - apply nth_error_In in H. destruct (og_syms _ _ O _ _ V N H) as [->|H']; auto.
Qed.

(** The state is within rule [r] at [d], where it may have to read an operand. *)
Definition single (s r d : nat) : Prop := item p s (r, d) /\ (d = 0 -> r = r0) /\
  forall k, item p s k -> k = (r, d) \/ (kpost g (r, d) = Some n /\ snd k = 0 /\ fst k <> r0).
(** The same, and the operand has been read: there may be an operator. *)
Definition after (s r d : nat) : Prop := item p s (r, S d) /\ (d = 0 -> r = r0) /\ kpost g (r, d) = Some n /\
  forall k, item p s k -> k = (r, S d) \/ (snd k = 1 /\ fst k <> r0 /\ nth_error (rh (fst k)) 0 = Some n).

Lemma step_n k k' : kvalid g k -> kstep g k k' -> kpost g k = Some n /\ snd k' = 0 /\ fst k' <> r0.
Proof.
  intros V (X & HX & Hin & H0). destruct (post_kind k X V HX) as [-> |[_ Ht]]; [|exfalso; eapply no_rules_term; eauto].
  splits; auto. now apply in_n in Hin as [_ H].
Qed.
(** Which closed states there are: the items that are not from the closure decide. *)
Lemma clo_items s r d : item p s (r, d) -> (d = 0 -> r = r0) -> (forall k, kernel g p s k -> k = (r, d)) -> single s r d.
Proof.
  intros Hi Hd HK. unfold single. splits; auto. intros k Hk. apply (au_reach g p A) in Hk. induction Hk as [k Hk|k k' Hk IH Hst]; [left; auto|].
  assert (V : kvalid g k). { destruct IH as [-> |(_ & H0 & _)]; [eapply (au_valid g p A); eauto|]. destruct Hst as (X & HX & _). unfold kpost in HX. destruct (nth_error (r_rhs (grule g (fst k))) (snd k)) eqn:E; [|discriminate]. split.
    - destruct (Nat.lt_ge_cases (fst k) nr) as [L|L]; auto. unfold grule in E. rewrite nth_overflow in E by auto. destruct (snd k); discriminate.
    - apply Nat.lt_le_incl, nth_error_Some. congruence. }
  destruct (step_n k k' V Hst) as (H1 & H2 & H3). right. splits; auto. destruct IH as [-> |(H & _)]; auto.
Qed.

Lemma single_0 : single 0 r0 0.
Proof.
  assert (H0 : item p 0 (r0, 0)) by (apply (au_start g p A); now apply in_start).
  apply clo_items; auto. intros k [Hk [N|(_ & E & HI)]]; [exfalso; apply N, (au_dot g p A _ Hk)|]. apply in_start in HI. destruct k; cbn in *; now subst.
Qed.
Lemma kernel_edge s Y q k : edge g p s Y q -> kernel g p q k -> snd k <> 0.
Proof. intros He [Hk [N|(-> & _)]]; auto. exfalso. eapply no_edge_0; eauto. Qed.

Lemma single_n s r d q : single s r d -> kpost g (r, d) = Some n -> edge g p s n q -> after q r d.
Proof.
  intros (Hi & Hd & HA) HP He. pose proof (au_goto g p A _ _ _ _ He Hi HP) as Hq. change (kadv (r, d)) with (r, S d) in Hq.
  assert (Back : forall k, item p q k -> snd k <> 0 -> k = (r, S d) \/ (snd k = 1 /\ fst k <> r0 /\ nth_error (rh (fst k)) 0 = Some n)).
  { intros k Hk N. destruct (au_back g p A _ _ _ _ He Hk N) as (k0 & H0 & HP0 & ->). destruct (HA k0 H0) as [-> |(_ & E & NR)]; [now left|]. right. unfold kadv. cbn. rewrite E. splits; auto. rewrite kpost_rh, E in HP0. exact HP0. }
  unfold after. splits; auto. intros k Hk. pose proof (au_reach g p A _ _ Hk) as HC. induction HC as [k HK|k k' HC IH Hst].
  - apply Back; auto. eapply kernel_edge; eauto.
  - exfalso. assert (Hk0 : item p q k).
    { clear - HC A. induction HC as [k [H _]|k k' HC IH Hst]; auto. eapply (au_close g p A); eauto. }
    pose proof (au_valid g p A _ _ Hk0) as V. destruct (step_n k k' V Hst) as (HP' & _). destruct (IH Hk0) as [-> |(E & NR & E0)].
    + rewrite kpost_rh in HP, HP'. cbn in HP, HP'. destruct V as [V _]. cbn in V. destruct (Nat.eq_dec r r0) as [-> |N].
      * rewrite (og_rh0 _ _ O) in HP'. destruct d; discriminate.
      * eapply (og_adj _ _ O r d); eauto.
    + rewrite kpost_rh, E in HP'. destruct V as [V _]. eapply (og_adj _ _ O (fst k) 0); eauto.
Qed.
(** An item of a state that reads a token *)
Lemma tok_next s r d a q k0 : edge g p s a q -> item p s (r, d) -> kpost g (r, d) = Some a -> (forall k, item p s k -> kpost g k = Some a -> k = k0) -> single q r (S d).
Proof.
  intros He Hi HP HU. assert (k0 = (r, d)) by (symmetry; now apply HU). subst k0. apply clo_items; [exact (au_goto g p A _ _ _ _ He Hi HP)|discriminate|].
  intros k HK. pose proof (kernel_edge _ _ _ _ He HK) as N. destruct HK as [Hk _]. destruct (au_back g p A _ _ _ _ He Hk N) as (k1 & H1 & HP1 & ->). now rewrite (HU k1 H1 HP1).
Qed.
Lemma item_rule s k : item p s k -> fst k < nr.
Proof. intros H. apply (au_valid g p A) in H. apply H. Qed.

(** From a state within rule [r] by the token [r] goes on with *)
Lemma single_tok s r d a q : single s r d -> kpost g (r, d) = Some a -> a <> n -> edge g p s a q -> single q r (S d).
Proof.
  intros (Hi & Hd & HA) HP Na He. eapply tok_next; eauto. intros k Hk HPk. destruct (HA k Hk) as [-> |(E & _)]; [reflexivity|]. congruence.
Qed.
(** ... by the token another rule begins with *)
Lemma single_head s r d a q j : single s r d -> kpost g (r, d) = Some n -> j < nr -> j <> r0 -> nth_error (rh j) 0 = Some a -> a <> n -> edge g p s a q -> single q j 1.
Proof.
  intros (Hi & Hd & HA) HP Hj Nj Ha Na He. apply tok_next with (s := s) (a := a) (k0 := (j, 0)); auto.
  - eapply (au_close g p A); eauto. exists n. splits; auto. now apply in_n.
  - now rewrite kpost_rh.
  - intros k Hk HPk. destruct (HA k Hk) as [-> |(_ & E & NR)]; [congruence|]. rewrite kpost_rh, E in HPk. destruct k as [r' d']. cbn in *. subst d'. f_equal. eapply (og_head _ _ O r' j a); eauto. now apply (item_rule s (r', 0)).
Qed.
(** ... after an operand *)
Lemma after_tok s r d a q : after s r d -> kpost g (r, S d) = Some a -> edge g p s a q -> single q r (S (S d)).
Proof.
  intros (Hi & Hd & HP & HA) Ha He. eapply tok_next; eauto. intros k Hk HPk. destruct (HA k Hk) as [-> |(E & NR & E0)]; [reflexivity|]. exfalso.
  rewrite kpost_rh in Ha, HPk, HP. cbn in Ha, HP. rewrite E in HPk. pose proof (item_rule _ _ Hi) as L. cbn in L. destruct (Nat.eq_dec r r0) as [-> |N].
  - rewrite (og_rh0 _ _ O) in Ha. destruct d; discriminate.
  - destruct d as [|d]; [now apply N, Hd|]. eapply (og_inner _ _ O (fst k) r a d); eauto. now apply (item_rule s).
Qed.
Lemma after_infix s r d a q j : after s r d -> j < nr -> j <> r0 -> nth_error (rh j) 0 = Some n -> nth_error (rh j) 1 = Some a -> item p s (j, 1) -> edge g p s a q -> single q j 2.
Proof.
  intros (Hi & Hd & HP & HA) Lj Nj E0 E1 Hij He. apply tok_next with (s := s) (a := a) (k0 := (j, 1)); auto; [rewrite kpost_rh; exact E1|]. intros k Hk HPk. rewrite kpost_rh in HPk. destruct (HA k Hk) as [-> |(E & NR & Ek0)].
  - cbn [fst snd] in HPk. rewrite kpost_rh in HP. cbn [fst snd] in HP. pose proof (item_rule _ _ Hi) as L. cbn in L. exfalso. destruct (Nat.eq_dec r r0) as [-> |N].
    + rewrite (og_rh0 _ _ O) in HPk. destruct d; discriminate.
    + destruct d as [|d]; [now apply N, Hd|]. eapply (og_inner _ _ O j r a d); eauto.
  - rewrite E in HPk. destruct k as [r' d']. cbn [fst snd] in *. subst d'. f_equal. eapply (og_infix _ _ O r' j a); eauto. now apply (item_rule s (r', 1)).
Qed.

(** *** What can be done in these states *)
Definition starts (j a : nat) : Prop := j < nr /\ j <> r0 /\ nth_error (rh j) 0 = Some n /\ nth_error (rh j) 1 = Some a.

Lemma raw_red s b r : raw g p s b (Reduce r) -> item p s (r, List.length (rh r)) /\ spread g p s (r, List.length (rh r)) b.
Proof.
  intros R. inversion R as [|r' b' HL HB|]; subst. unfold rh. rewrite map_length. split; [eapply look_item; eauto|]. now apply (au_look g p A).
Qed.
Lemma full_post r : kpost g (r, List.length (rh r)) = None.
Proof. rewrite kpost_rh. now apply nth_error_None. Qed.

Lemma single_red s r d b r' : single s r d -> raw g p s b (Reduce r') -> r' = r /\ d = List.length (rh r).
Proof.
  intros (Hi & Hd & HA) R. destruct (raw_red _ _ _ R) as [H _]. destruct (HA _ H) as [E|(_ & E & NR)].
  - injection E as -> E. auto.
  - exfalso. cbn in E, NR. pose proof (item_rule _ _ H) as L. cbn in L. destruct (og_ne _ _ O r' L NR) as [N _]. now destruct (rh r').
Qed.
Lemma after_red s r d b r' : after s r d -> raw g p s b (Reduce r') -> r' = r /\ S d = List.length (rh r).
Proof.
  intros (Hi & Hd & HP & HA) R. destruct (raw_red _ _ _ R) as [H _]. destruct (HA _ H) as [E|(E & NR & E0)].
  - injection E as -> E. auto.
  - exfalso. cbn in E, NR, E0. pose proof (item_rule _ _ H) as L. cbn in L. destruct (og_ne _ _ O r' L NR) as [_ N]. destruct (rh r') as [|Y [|? ?]]; cbn in *; congruence.
Qed.
Lemma raw_shift_item s b q : raw g p s b (Shift q) -> b < g_nterm g -> exists k, item p s k /\ kpost g k = Some b.
Proof.
  intros R Hb. inversion R as [X q' m He Hc| |]; subst. destruct (au_edge g p A _ _ _ He) as (_ & k & Hk & HP). exists k. split; auto.
  pose proof (au_valid g p A _ _ Hk) as V. unfold covers in Hc. destruct (post_kind k X V HP) as [-> |[_ Ht]].
  - rewrite (og_nt _ _ O) in Hc. now subst.
  - unfold is_term in Ht. rewrite Ht in Hc. now subst.
Qed.
Lemma tok_ne b : b < g_nterm g -> b <> n.
Proof. intros Hb ->. pose proof (nonterm_ge g W _ (og_nt _ _ O)). lia. Qed.
Lemma single_shift s r d b q : single s r d -> b < g_nterm g -> raw g p s b (Shift q) -> kpost g (r, d) <> None.
Proof.
  intros (Hi & Hd & HA) Hb R. destruct (raw_shift_item s b q R Hb) as (k & Hk & HP). destruct (HA k Hk) as [-> |(E & _)]; congruence.
Qed.
Lemma after_shift s r d b q : after s r d -> b < g_nterm g -> raw g p s b (Shift q) -> kpost g (r, S d) = Some b \/ exists j, starts j b.
Proof.
  intros (Hi & Hd & HP & HA) Hb R. destruct (raw_shift_item s b q R Hb) as (k & Hk & HPk). destruct (HA k Hk) as [-> |(E & NR & E0)]; [now left|]. right. exists (fst k). unfold starts. splits; auto.
  - now apply (item_rule s).
  - rewrite kpost_rh, E in HPk. exact HPk.
Qed.

(** *** Trees nested as the precedences say *)
Notation derives := (derives g (direct g) (M := M)).
Notation derives_all := (derives_all g (direct g) (M := M)).
Notation kept := (kept g p p3 (M := M)).
Notation kept_all := (kept_all g p p3 (M := M)).
Definition ends (i : nat) : Prop := i < nr /\ i <> r0 /\ exists l, rh i = l ++ [n].
Record gnest (tr : tree M) (b : nat) : Prop := {
  gn_right : forall i l c b' j u a m us, gocc (TNode i (l ++ [c])) b' tr b -> ends i -> gleads (TNode j (u :: TTok a m :: us)) c -> starts j a -> gtok_over g a i;
  gn_left : forall i ts a j, gocc (TNode i ts) a tr b -> ends i -> starts j a -> grule_over g i a }.
Lemma gnest_child r l c rs b : gnest (TNode r (l ++ c :: rs)) b -> gnest c (la_at (flat_map yield rs) b).
Proof.
  intros [H1 H2]. constructor.
  - intros i l' c' b' j u a m us HO. eapply H1. apply go_node. exact HO.
  - intros i ts a j HO. eapply H2. apply go_node. exact HO.
Qed.

Definition ctx (rk dk : nat) (tr : tree M) : Prop := rk <> r0 -> krest g (rk, dk) = [] ->
  forall j u a m us, gleads (TNode j (u :: TTok a m :: us)) tr -> starts j a -> gtok_over g a rk.
Definition reads (c : tree M) : Prop := toks_ok g (yield c) -> forall s rk dk b, single s rk dk -> kpost g (rk, dk) = Some n -> b < g_nterm g ->
  (forall r, r < nr -> r <> r0 -> spread g p s (r, 0) b) -> ctx rk dk c -> gnest c b -> kept s n c b.

Lemma tok_only a tr : derives a tr -> is_term g a -> exists m, tr = TTok a m.
Proof.
  intros D Ha. inversion D as [b m Y [Hb HE]|r ru ts Hr HD]; subst; [destruct HE as [[-> _]|(ms & HK & _)]; [eauto|unfold is_term in Ha; congruence]|]. exfalso. eapply no_rules_term; eauto. apply in_rules_of. eauto.
Qed.
Lemma ends_at r d : r < nr -> r <> r0 -> kpost g (r, d) = Some n -> S d = List.length (rh r) -> ends r.
Proof.
  intros L N HP HL. unfold ends. splits; auto. exists (firstn d (rh r)). rewrite kpost_rh in HP. cbn [fst snd] in HP. rewrite <- (firstn_skipn d (rh r)) at 1. f_equal.
  rewrite (skip_nth _ _ _ HP). f_equal. apply skipn_all2. lia.
Qed.
Lemma la_range w b : toks_ok g w -> b < g_nterm g -> la_at (M := M) w b < g_nterm g.
Proof. intros HO Hb. destruct w as [|[a m] w]; auto. apply (HO a m). now left. Qed.

Lemma rest_kept r : r < nr -> r <> r0 -> forall Ys ts s d b, skipn d (rh r) = Ys -> derives_all Ys ts -> Forall2 (fun Y c => Y = n -> reads c) Ys ts -> toks_ok g (flat_map yield ts) ->
  (single s r d \/ exists d', d = S d' /\ after s r d') -> 1 <= d -> spread g p s (r, d) b -> b < g_nterm g ->
  (forall c1 c rs, ts = c1 ++ c :: rs -> gnest c (la_at (flat_map yield rs) b)) ->
  (forall l c, ts = l ++ [c] -> ends r -> forall j u a m us, gleads (TNode j (u :: TTok a m :: us)) c -> starts j a -> gtok_over g a r) ->
  (forall j, ends r -> starts j b -> grule_over g r b) ->
  exists s', kept_all s Ys ts b s' /\ ract g (acts p3 s') b (Reduce r).
Proof.
  intros Lr Nr. induction Ys as [|Y Ys IH]; intros ts s d b ES HD HR HO Hat Hd1 Sp Hb HN HLst HEnd.
  - inversion HD; subst. exists s. split; [constructor|].
    assert (Hi : item p s (r, d)) by (destruct Hat as [(H & _)|(d' & -> & H & _)]; auto). pose proof (au_valid g p A _ _ Hi) as [_ V]. cbn in V.
    assert (EL : d = List.length (rh r)).
    { pose proof (f_equal (@List.length _) ES) as E. rewrite skipn_length in E. cbn in E. unfold rh in *. rewrite map_length in *. lia. }
    assert (Hs : s < ns) by (eapply (au_range g p A); eauto).
    assert (R : raw g p s b (Reduce r)) by (constructor; auto; apply (look_of g p A); unfold rlen; rewrite EL in Sp; unfold rh in Sp; now rewrite map_length in Sp).
    apply reduce_dec; auto.
    + intros r' R'. destruct Hat as [H|(d' & -> & H)]; [eapply single_red; eauto|eapply after_red; eauto].
    + intros q Rq. destruct Hat as [H|(d' & -> & H)].
      * exfalso. eapply single_shift; eauto. rewrite EL. apply full_post.
      * destruct (after_shift s r d' b q H Hb Rq) as [H'|(j & Hj)]; [rewrite EL, full_post in H'; discriminate|]. eapply HEnd; eauto. eapply ends_at; eauto. apply H.
  - inversion HD as [|? c ? ts' Dc Dts]; subst. inversion HR as [|? ? ? ? Rc Rts]; subst.
    assert (HP : nth_error (rh r) d = Some Y). { rewrite <- (firstn_skipn d (rh r)), ES. assert (d < List.length (rh r)) by (pose proof (f_equal (@List.length _) ES) as E; rewrite skipn_length in E; cbn in E; lia). rewrite nth_error_app2; rewrite firstn_length_le by lia; auto. now rewrite Nat.sub_diag. }
    assert (ES' : skipn (S d) (rh r) = Ys) by (rewrite (skip_nth _ _ _ HP) in ES; now injection ES).
    assert (HK : kpost g (r, d) = Some Y) by (rewrite kpost_rh; exact HP).
    assert (HKr : krest g (r, d) = Ys) by (rewrite krest_rh; exact ES').
    assert (Hi : item p s (r, d)) by (destruct Hat as [(H & _)|(d' & -> & H & _)]; auto). assert (Hs : s < ns) by (eapply (au_range g p A); eauto).
    destruct (au_next g p A _ _ _ Hi HK) as [q He]. cbn [flat_map] in HO. apply toks_app in HO as [O1 O2].
    assert (Sq : spread g p q (r, S d) b) by (change (r, S d) with (kadv (r, d)); eapply sp_goto; eauto).
    assert (HN' : forall c1 c0 rs, ts' = c1 ++ c0 :: rs -> gnest c0 (la_at (flat_map yield rs) b)) by (intros c1 c0 rs ->; apply (HN (c :: c1)); reflexivity).
    assert (HL' : forall l c0, ts' = l ++ [c0] -> ends r -> forall j u a m us, gleads (TNode j (u :: TTok a m :: us)) c0 -> starts j a -> gtok_over g a r) by (intros l c0 ->; apply (HLst (c :: l)); reflexivity).
    destruct (og_syms _ _ O r Y Lr Nr (nth_error_In _ _ HP)) as [-> |HT].
    + assert (HS : single s r d).
      { destruct Hat as [H|(d' & -> & _ & _ & HP' & _)]; auto. exfalso. rewrite kpost_rh in HP'. eapply (og_adj _ _ O r d'); eauto. }
      pose proof (single_n s r d q HS HK He) as HA.
      assert (Kc : kept s n c (la_at (flat_map yield ts') b)).
      { apply (Rc eq_refl O1 s r d); auto.
        - now apply la_range.
        - intros r' Lr' Nr'. assert (Hst : kstep g (r, d) (r', 0)) by (exists n; splits; auto; now apply in_n).
          destruct Ys as [|Z Ys]; inversion Dts as [|? c1 ? ts1 D1 D2]; subst.
          + cbn. eapply sp_null; eauto. rewrite HKr. constructor.
          + assert (HZ : nth_error (rh r) (S d) = Some Z). { rewrite krest_rh in HKr. cbn [fst snd] in HKr. rewrite <- (firstn_skipn (S d) (rh r)), HKr. assert (S d < List.length (rh r)) by (pose proof (f_equal (@List.length _) HKr) as E; rewrite skipn_length in E; cbn in E; lia). rewrite nth_error_app2; rewrite firstn_length_le by lia; auto. now rewrite Nat.sub_diag. }
            destruct (og_syms _ _ O r Z Lr Nr (nth_error_In _ _ HZ)) as [-> |HT]; [exfalso; eapply (og_adj _ _ O r d); eauto|].
            destruct (tok_only Z c1 D1 HT) as [m ->]. cbn. eapply sp_first; [exact Hi|exact Hst|]. rewrite HKr. apply f_here, f_term. left. auto.
        - intros _ HK0 j u a m us HG Hst. assert (EY : Ys = []) by congruence. rewrite EY in Dts. inversion Dts as [E1 E2|]. eapply (HLst []); [rewrite <- E2; reflexivity| |exact HG|exact Hst]. eapply ends_at; eauto.
          pose proof (f_equal (@List.length _) ES') as E. rewrite skipn_length, EY in E. pose proof (proj1 (nth_error_Some (rh r) d) ltac:(congruence)). cbn in E. lia.
        - apply (HN []). reflexivity. }
      destruct (IH ts' q (S d) b ES' Dts Rts O2 (or_intror (ex_intro _ d (conj eq_refl HA))) ltac:(lia) Sq Hb HN' HL' HEnd) as (s' & KA & RA). exists s'. split; auto. econstructor; eauto.
    + destruct (tok_only Y c Dc HT) as [m ->]. assert (NY : Y <> n) by (intros ->; now apply n_term). assert (HYt : Y < g_nterm g) by (apply (O1 Y m); now left).
      assert (RS : ract g (acts p3 s) Y (Shift q)).
      { apply shift_dec; auto; [econstructor; eauto; unfold covers; unfold is_term in HT; now rewrite HT|]. intros r' R'. exfalso.
        destruct Hat as [H|(d' & -> & H)]; [apply (single_red s r d Y r') in H as [-> E]|apply (after_red s r d' Y r') in H as [-> E]]; auto; rewrite E in HK; rewrite full_post in HK; discriminate. }
      assert (HQ : single q r (S d)) by (destruct Hat as [H|(d' & -> & H)]; [eapply single_tok; eauto|eapply after_tok; eauto]).
      destruct (IH ts' q (S d) b ES' Dts Rts O2 (or_introl HQ) ltac:(lia) Sq Hb HN' HL' HEnd) as (s' & KA & RA). exists s'. split; auto. econstructor; eauto. econstructor; eauto.
Qed.

Theorem nest_kept : (forall Y tr, derives Y tr -> Y = n -> reads tr) /\ (forall Ys ts, derives_all Ys ts -> Forall2 (fun Y c => Y = n -> reads c) Ys ts).
Proof.
  apply derives_both.
  - intros a m Y [_ HM] -> HO. exfalso. apply (member_not_nonterm g _ _ HM). apply O.
  - intros r ru ts Hr HD IH HL HO s rk dk b HS HPk Hb HSp HC HN. assert (Er := grule_nth g _ _ Hr). assert (Lr : r < nr) by (apply nth_error_Some; congruence).
    assert (Nr : r <> r0) by (apply (in_n r), in_rules_of; eauto).
    assert (Erh : map fst (r_rhs ru) = rh r) by (unfold rh; now rewrite Er). rewrite Erh in *. pose proof HS as (Hik & _). assert (Hs : s < ns) by (eapply (au_range g p A); eauto).
    assert (Hir : item p s (r, 0)) by (eapply (au_close g p A); eauto; exists n; splits; auto; now apply in_n).
    pose proof (HSp r Lr Nr) as Spr. cbn [yield] in HO. destruct (og_ne _ _ O r Lr Nr) as [NE1 NE2].
    assert (HG : exists s', kept_all s (rh r) ts b s' /\ ract g (acts p3 s') b (Reduce r)).
    { destruct (rh r) as [|Y Ys] eqn:Eh; [congruence|]. inversion HD as [|? c0 ? ts1 Dc0 D1]; subst. inversion IH as [|? ? ? ? Rc0 R1]; subst.
      assert (HP0 : kpost g (r, 0) = Some Y) by (rewrite kpost_rh; cbn [fst snd]; now rewrite Eh).
      destruct (au_next g p A _ _ _ Hir HP0) as [q He]. cbn [flat_map] in HO. apply toks_app in HO as [O1 O2].
      assert (Sq : spread g p q (r, 1) b) by (change (r, 1) with (kadv (r, 0)); eapply sp_goto; eauto).
      destruct (og_syms _ _ O r Y Lr Nr ltac:(rewrite Eh; now left)) as [-> |HT].
      - destruct Ys as [|a Ys]; [congruence|]. inversion D1 as [|? c1 ? ts2 Dc1 D2]; subst. inversion R1 as [|? ? ? ? _ R2]; subst.
        assert (HTa : is_term g a) by (destruct (og_syms _ _ O r a Lr Nr ltac:(rewrite Eh; right; now left)) as [-> |]; auto; exfalso; apply (og_adj _ _ O r 0 Lr Nr); now rewrite Eh).
        destruct (tok_only a c1 Dc1 HTa) as [m ->]. cbn [flat_map] in O2. apply toks_app in O2 as [O3 O4]. assert (Ha : 0 < a < g_nterm g) by (apply (O3 a m); now left).
        assert (St : starts r a) by (unfold starts; splits; auto; now rewrite Eh).
        assert (HKr : krest g (r, 0) = a :: Ys) by (rewrite krest_rh; cbn [fst snd]; now rewrite Eh).
        assert (K0 : kept s n c0 a).
        { apply (Rc0 eq_refl O1 s rk dk); auto; [lia| | |].
          - intros r' Lr' Nr'. eapply sp_first; [exact Hir|exists n; splits; auto; now apply in_n|]. rewrite HKr. apply f_here, f_term. left. auto.
          - intros N0 E0 j u a' m' us HL0. refine (HC N0 E0 j u a' m' us _). constructor. exact HL0.
          - exact (gnest_child r [] c0 (TTok a m :: ts2) b HN). }
        pose proof (single_n s rk dk q HS HPk He) as HA. pose proof (au_goto g p A _ _ _ _ He Hir HP0) as Hi1. change (kadv (r, 0)) with (r, 1) in Hi1.
        assert (HP1 : kpost g (r, 1) = Some a) by (rewrite kpost_rh; cbn [fst snd]; now rewrite Eh).
        destruct (au_next g p A _ _ _ Hi1 HP1) as [q2 He2]. assert (Hq : q < ns) by (eapply (au_range g p A); eauto).
        assert (RS : ract g (acts p3 q) a (Shift q2)).
        { apply shift_dec; auto; [lia|econstructor; eauto; unfold covers; unfold is_term in HTa; now rewrite HTa|]. intros r' R'. pose proof (after_red q rk dk a r' HA R') as [-> EL].
          destruct (Nat.eq_dec rk r0) as [-> |Nk].
          - exfalso. inversion R' as [|? ? HL' _|]; subst. pose proof (start_look g p p3 p4 t P q r0 _ a HL' (og_start _ _ O)). lia.
          - refine (HC Nk _ r c0 a m ts2 _ St); [|constructor]. rewrite krest_rh. apply skipn_all2. cbn [fst snd]. lia. }
        pose proof (after_infix q rk dk a q2 r HA Lr Nr ltac:(now rewrite Eh) ltac:(now rewrite Eh) Hi1 He2) as H2.
        assert (Sq2 : spread g p q2 (r, 2) b) by (change (r, 2) with (kadv (r, 1)); eapply sp_goto; eauto).
        destruct (rest_kept r Lr Nr Ys ts2 q2 2 b) as (s' & KA & RA); auto.
        + now rewrite Eh.
        + intros c1' c rs ->. apply (gnest_child r (c0 :: TTok a m :: c1') c rs b). exact HN.
        + intros l c -> HE j u a' m' us. eapply (gn_right _ _ HN r (c0 :: TTok a m :: l) c b); auto. apply go_here.
        + intros j HE Hj. eapply (gn_left _ _ HN r); eauto. apply go_here.
        + exists s'. split; auto. econstructor; [exact K0|exact He|]. econstructor; [|exact He2|exact KA]. econstructor; eauto.
      - destruct (tok_only Y c0 Dc0 HT) as [m ->]. assert (NY : Y <> n) by (intros ->; now apply n_term). assert (HYt : Y < g_nterm g) by (apply (O1 Y m); now left).
        assert (RS : ract g (acts p3 s) Y (Shift q)).
        { apply shift_dec; auto; [econstructor; eauto; unfold covers; unfold is_term in HT; now rewrite HT|]. intros r' R'. exfalso. destruct (single_red s rk dk Y r' HS R') as [-> E]. rewrite E, full_post in HPk. discriminate. }
        pose proof (single_head s rk dk Y q r HS HPk Lr Nr ltac:(now rewrite Eh) NY He) as H1.
        destruct (rest_kept r Lr Nr Ys ts1 q 1 b) as (s' & KA & RA); auto.
        + now rewrite Eh.
        + intros c1' c rs ->. apply (gnest_child r (TTok Y m :: c1') c rs b). exact HN.
        + intros l c -> HE j u a' m' us. eapply (gn_right _ _ HN r (TTok Y m :: l) c b); auto. apply go_here.
        + intros j HE Hj. eapply (gn_left _ _ HN r); eauto. apply go_here.
        + exists s'. split; auto. econstructor; [|exact He|exact KA]. econstructor; eauto. }
    destruct HG as (s' & KA & RA). rewrite <- HL. eapply k_node; eauto. now rewrite Erh.
  - constructor.
  - intros Y tr Ys ts _ IH _ IHs. constructor; auto.
Qed.

Theorem nest_accepted tr : derives (g_start g) tr -> toks_ok g (yield tr) -> gnest tr 0 -> kept 0 (g_start g) tr 0.
Proof.
  intros D HO HN. remember (g_start g) as S0 eqn:ES. inversion D as [a m Y HE|r ru ts Hr HD]; subst.
  - exfalso. destruct HE as [_ HM]. apply (member_not_nonterm g _ _ HM). apply (wg_start g W).
  - assert (r = r0) by (apply in_start, in_rules_of; eauto). subst r. assert (Er := grule_nth g _ _ Hr). assert (Erh : map fst (r_rhs ru) = [n]) by (rewrite <- Er; apply (og_rh0 _ _ O)).
    pose proof (proj2 nest_kept _ _ HD) as HF. rewrite Erh in HD, HF. inversion HD as [|? c ? ts' Dc D']; subst. inversion D'; subst. inversion HF as [|? ? ? ? Rc _]; subst.
    cbn in HO. rewrite app_nil_r in HO. pose proof single_0 as HS. pose proof HS as (Hi & _). assert (HP : kpost g (r0, 0) = Some n) by (rewrite kpost_rh; cbn [fst snd]; now rewrite (og_rh0 _ _ O)).
    assert (Sp : spread g p 0 (r0, 0) 0) by (apply sp_start; now apply in_start). assert (HZ : 0 < g_nterm g) by (apply (wg_nterm_pos g W)).
    assert (Kc : kept 0 n c 0).
    { apply (Rc eq_refl HO 0 r0 0); auto.
      - intros r Lr Nr. eapply sp_null; [exact Sp|exists n; splits; auto; now apply in_n|]. rewrite krest_rh. cbn [fst snd]. rewrite (og_rh0 _ _ O). constructor.
      - intros N. now destruct N.
      - exact (gnest_child r0 [] c [] 0 HN). }
    destruct (au_next g p A _ _ _ Hi HP) as [q He]. pose proof (single_n _ _ _ _ HS HP He) as HA. destruct (au_edge g p A _ _ _ He) as (Hq & _).
    assert (Sq : spread g p q (r0, 1) 0) by (change (r0, 1) with (kadv (r0, 0)); eapply sp_goto; eauto).
    eapply k_node; [exact Hr| |].
    + rewrite Erh. econstructor; [exact Kc|exact He|constructor].
    + assert (EL : List.length (r_rhs (grule g r0)) = 1) by (rewrite <- (map_length fst); change (map fst (r_rhs (grule g r0))) with (rh r0); now rewrite (og_rh0 _ _ O)).
      apply reduce_dec; auto.
      * constructor; auto. apply (look_of g p A). unfold rlen. now rewrite EL.
      * intros r' R'. eapply after_red; eauto.
      * intros q' R'. exfalso. inversion R' as [X q2 m He' Hc| |]; subst. destruct (edge_sym g W p A _ _ _ He') as (_ & N0 & _). destruct (au_edge g p A _ _ _ He') as (_ & k & Hk & HPk).
        destruct (post_kind k X (au_valid g p A _ _ Hk) HPk) as [-> |[_ Ht]]; unfold covers in Hc; [rewrite (og_nt _ _ O) in Hc|unfold is_term in Ht; rewrite Ht in Hc]; congruence.
Qed.

(** *** Operators compare *)
Lemma reach_at r b : r < nr -> r <> r0 -> item p 0 (r, 0) -> spread g p 0 (r, 0) b -> forall d, d <= List.length (rh r) -> exists s', item p s' (r, d) /\ spread g p s' (r, d) b /\
  match d with 0 => s' = 0 | S d' => forall Y, nth_error (rh r) d' = Some Y -> (Y = n -> (d' = 0 /\ after s' r0 0) \/ after s' r d') /\ (Y <> n -> single s' r (S d')) end.
Proof.
  intros Lr Nr Hi Sp. induction d as [|d IH]; intros Hd; [eauto|]. destruct IH as (s' & Hi' & Sp' & HS); [lia|].
  destruct (nth_error (rh r) d) as [Y|] eqn:E; [|apply nth_error_None in E; lia]. assert (HP : kpost g (r, d) = Some Y) by (now rewrite kpost_rh).
  destruct (au_next g p A _ _ _ Hi' HP) as [q He]. exists q. split; [exact (au_goto g p A _ _ _ _ He Hi' HP)|]. split; [change (r, S d) with (kadv (r, d)); eapply sp_goto; eauto|].
  assert (HP0 : kpost g (r0, 0) = Some n) by (rewrite kpost_rh; cbn [fst snd]; now rewrite (og_rh0 _ _ O)).
  intros Y' EY. assert (Y' = Y) by congruence. subst Y'. clear EY. destruct d as [|d].
  - subst s'. split; intros HY.
    + rewrite HY in *. left. split; auto. eapply single_n; eauto. apply single_0.
    + exact (single_head _ _ _ _ _ _ single_0 HP0 Lr Nr E HY He).
  - destruct (nth_error (rh r) d) as [Z|] eqn:EZ; [|exfalso; apply nth_error_None in EZ; lia]. destruct (HS Z eq_refl) as [H1 H2]. split; intros HY.
    + rewrite HY in *. right. eapply single_n; eauto. apply H2. intros HZ. rewrite HZ in EZ. exact (og_adj _ _ O r d Lr Nr EZ E).
    + destruct (Nat.eq_dec Z n) as [HZ|HZ].
      * destruct (H1 HZ) as [[-> HA]|HA].
        -- eapply after_infix; eauto. now rewrite <- HZ.
        -- eapply after_tok; eauto.
      * eapply single_tok; eauto.
Qed.
(** A rule that ends in an operand and an infix or postfix operator: one has the higher
    precedence, or they are on the same line. *)
Theorem compared i j a : ends i -> starts j a -> gtok_over g a i \/ grule_over g i a \/ exists l c, sy_prec (gsym g a) = Some (l, ANone) /\ r_prec (grule g i) = Some (l, c).
Proof.
  intros (Li & Ni & l & Ei) (Lj & Nj & H0 & H1). pose proof single_0 as (Hr0 & _). assert (HP0 : kpost g (r0, 0) = Some n) by (rewrite kpost_rh; cbn [fst snd]; now rewrite (og_rh0 _ _ O)).
  assert (Cl : forall s r d k, item p s (r, d) -> kpost g (r, d) = Some n -> k < nr -> k <> r0 -> item p s (k, 0)).
  { intros s r d k Hi HP Lk Nk. eapply (au_close g p A); eauto. exists n. splits; auto. now apply in_n. }
  assert (HT : is_term g a).
  { destruct (og_syms _ _ O j a Lj Nj (nth_error_In _ _ H1)) as [-> |]; auto. exfalso. exact (og_adj _ _ O j 0 Lj Nj H0 H1). }
  assert (HPj : kpost g (j, 0) = Some n) by (now rewrite kpost_rh). assert (HPj1 : kpost g (j, 1) = Some a) by (now rewrite kpost_rh).
  pose proof (Cl _ _ _ i Hr0 HP0 Li Ni) as Hi0. pose proof (Cl _ _ _ j Hr0 HP0 Lj Nj) as Hj0.
  assert (Sp0 : spread g p 0 (i, 0) a).
  { eapply sp_first; [exact Hj0|exists n; splits; auto; now apply in_n|]. rewrite krest_rh. cbn [fst snd]. destruct (rh j) as [|y0 [|y1 ys]]; try discriminate. injection H1 as ->. cbn. apply f_here, f_term. left. auto. }
  destruct (reach_at i a Li Ni Hi0 Sp0 (List.length l)) as (s1 & Hi1 & Sp1 & HS1); [rewrite Ei, app_length; cbn; lia|].
  assert (HPi : kpost g (i, List.length l) = Some n) by (rewrite kpost_rh; cbn [fst snd]; rewrite Ei, nth_error_app2, Nat.sub_diag by lia; reflexivity).
  destruct (au_next g p A _ _ _ Hi1 HPi) as [s2 He]. pose proof (sp_goto g p _ _ _ _ _ Sp1 HPi He) as Sp2. pose proof (Cl _ _ _ j Hi1 HPi Lj Nj) as Hj1. pose proof (au_goto g p A _ _ _ _ He Hj1 HPj) as Hj2.
  change (kadv (j, 0)) with (j, 1) in Hj2. change (kadv (i, List.length l)) with (i, S (List.length l)) in Sp2. destruct (au_next g p A _ _ _ Hj2 HPj1) as [q Heq].
  destruct (au_edge g p A _ _ _ He) as (Hs2 & _).
  assert (La : a < g_nterm g). { destruct (edge_sym g W p A _ _ _ Heq) as (Lx & _). apply (wg_term g W a) in HT; auto. }
  assert (RS : raw g p s2 a (Shift q)) by (econstructor; eauto; unfold covers; unfold is_term in HT; now rewrite HT).
  assert (RR : raw g p s2 a (Reduce i)).
  { constructor; auto. apply (look_of g p A). unfold rlen. assert (E : List.length (r_rhs (grule g i)) = S (List.length l)) by (rewrite <- (map_length fst); change (map fst (r_rhs (grule g i))) with (rh i); rewrite Ei, app_length; cbn; lia). now rewrite E. }
  pose proof (tok_not_start g p p3 p4 t P a La) as Na. pose proof (pp_settled _ _ _ _ _ P s2 Hs2) as S3.
  assert (SA : after s2 i (List.length l)).
  { eapply single_n; eauto. destruct (List.length l) as [|d] eqn:El; [exfalso; destruct l; [|discriminate]; now apply (og_ne _ _ O i Li Ni)|].
    assert (exists Z, nth_error (rh i) d = Some Z) as [Z EZ] by (destruct (nth_error (rh i) d) eqn:EZ; [eauto|]; apply nth_error_None in EZ; rewrite Ei, app_length in EZ; cbn in EZ; lia).
    apply (HS1 Z EZ). intros HZ. rewrite HZ in EZ. rewrite kpost_rh in HPi. exact (og_adj _ _ O i d Li Ni EZ HPi). }
  destruct (survivor_max g p p3 s2 S3 a _ Na RS) as (c & Rc & Hin & Hl & _). destruct c as [q'| |r'| | | | | | |]; try contradiction.
  - destruct (winner g p p3 OW s2 S3 a _ _ Na Hin Logic.I RR) as [H|(i' & u & j' & v & E1 & E2 & H)]; [discriminate|]. cbn in E1, E2. left. exists i', u, j', v. splits; auto.
  - inversion Rc; subst. congruence.
  - destruct (after_red _ _ _ _ _ SA Rc) as [-> _].
    destruct (winner g p p3 OW s2 S3 a _ _ Na Hin Logic.I RS) as [H|(i' & u & j' & v & E1 & E2 & H)]; [discriminate|]. cbn in E1, E2. right. destruct H as [H|[K1 K2]].
    + left. exists j', v, i', u. splits; auto.
    + subst j'. destruct v; [left; exists i', ALeft, i', u; splits; auto|congruence|right; eauto].
Qed.
End Op.
