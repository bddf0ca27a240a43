(** Grammars that choose a rule by the next token are never rejected for conflicts (C52). *)
From Coq Require Import Sorting.Permutation.
From Verif Require Import Base Syntax BaseFacts FrontEnd First States Actions Tables Runtime Spec WfGrammar FrontFacts DeclSpec DeclFacts PipeFacts BuildFacts
  GramFacts LangFacts CycleFacts PanicFacts Main FaultSpec FaultBack ChooseSpec ChooseFacts.
From Verif Require Claims13.
Open Scope string_scope. Open Scope nat_scope. Open Scope list_scope.

Section Choice.
Context (ds : list decl) (g : grammar) (opts : list (nat * nat)) (DE : declared ds g opts) (W : wf_grammar g).

Lemma toks_opt n o al o' al' : tokens_of ds ([n], o, al) = tokens_of ds ([n], o', al'). Proof. reflexivity. Qed.
Lemma begins_opt t n o al : begins ds t ([n], o, al) -> forall o' al', begins ds t ([n], o', al').
Proof. intros H o' al'. inversion H; subst; [now apply bg_tok|now apply bg_rule]. Qed.

(** The tokens of an element are the members of its symbol. *)
Lemma elem_member e X a : elem_sym g opts e X -> member g a X -> In (gname g a) (tokens_of ds e).
Proof.
  intros HE HM. assert (HK : kind_at g X <> Some KNonTerm) by (destruct HM as [[<- HT]|(ms & Hm & _)]; unfold is_term in *; congruence).
  destruct e as [[[|n [|n2 ns]] o] al]; [destruct HE| |].
  - destruct HE as [HN HE]. destruct o.
    + destruct HE as (Y & HY & _). destruct (de_opts _ _ _ DE _ _ HY) as (_ & k & Hk). exfalso. apply HK. exact (opt_nonterm ds g opts DE k X Hk).
    + destruct HN as [U|L]; [|exfalso; apply HK; exact (lower_kind ds g opts DE X n HE L)]. cbn. unfold upper in U. rewrite U.
      destruct (sym_decl ds g opts DE _ _ HE (upper_nonempty _ U)) as (_ & _ & HC). destruct HM as [[<- HT]|(ms & Hm & Hi)].
      * apply kind_at_gsym in HT. rewrite HT in HC. cbn in HC. rewrite <- HC. left. symmetry. now apply at_gname.
      * apply kind_at_gsym in Hm. rewrite Hm in HC. cbn in HC. rewrite <- HC. now apply in_map.
  - destruct HE as (_ & HA & ms & Hm & HF). destruct HM as [[<- HT]|(ms' & Hm' & Hi)]; [unfold is_term in HT; congruence|]. rewrite Hm in Hm'. injection Hm' as <-. destruct (forall2_in_l _ _ _ HF _ Hi) as (m & Hin & Hat). rewrite (at_gname _ _ _ Hat). exact Hin.
Qed.
Lemma member_elem e X t : elem_sym g opts e X -> is_optional e = false -> In t (tokens_of ds e) -> exists a, member g a X /\ gname g a = t.
Proof.
  intros HE HO HT. destruct e as [[[|n [|n2 ns]] o] al]; [destruct HE| |].
  - cbn in HO. subst o. destruct HE as [HN HE]. cbn in HT. destruct (is_terminal_ident n) eqn:U; [|destruct HT]. destruct (sym_decl ds g opts DE _ _ HE (upper_nonempty _ U)) as (_ & _ & HC).
    destruct (class_of ds n) as [ms|] eqn:EC.
    + destruct (sy_kind (gsym g X)) as [| |ms0] eqn:EK; try discriminate. cbn in HC. injection HC as <-. apply in_map_iff in HT as (a & <- & Ha). exists a. split; auto. right. exists ms0. split; auto. now rewrite (at_kind _ _ _ HE), EK.
    + destruct HT as [<-|[]]. exists X. split; [|now apply at_gname]. left. split; auto. exact (named_term ds g opts DE X n HE U EC).
  - destruct HE as (_ & HA & ms & Hm & HF). destruct (forall2_in_r _ _ _ HF t HT) as (a & Ha & Hat). exists a. split; [right; eauto|now apply at_gname].
Qed.

Lemma rule_elem r ru : nth_error (g_rules g) r = Some ru ->
  (exists i d, nth_error (rules_in ds) i = Some d /\ r = i /\ rule_made g opts d ru) \/
  exists Y X, In (Y, X) opts /\ r_lhs ru = X /\ (map fst (r_rhs ru) = [] \/ map fst (r_rhs ru) = [Y]).
Proof.
  destruct (de_rules _ _ _ DE) as (rs & HR & HF). rewrite HR. intros H. destruct (Nat.lt_ge_cases r (List.length rs)) as [Hlt|Hge].
  - left. rewrite nth_error_app1 in H by auto. clear - HF H. revert r H. induction HF as [|d u l m Hd HF IH]; intros [|r] H; try discriminate.
    + injection H as <-. exists 0, d. auto.
    + destruct (IH r H) as (i & d' & H1 & -> & H2). exists (S i), d'. auto.
  - right. rewrite nth_error_app2 in H by auto. apply nth_error_In, in_flat_map in H as ([Y X] & Hin & Hr). exists Y, X. destruct Hr as [<-|[<-|[]]]; cbn; auto.
Qed.
Lemma opt_index r q ru qu X Y : nth_error (g_rules g) r = Some ru -> nth_error (g_rules g) q = Some qu -> In (Y, X) opts -> r_lhs ru = X -> r_lhs qu = X -> map fst (r_rhs ru) = map fst (r_rhs qu) -> r = q.
Proof.
  destruct (de_rules _ _ _ DE) as (rs & HR & HF). rewrite HR. intros Hr Hq HY Er Eq EM.
  assert (NR : forall ru, r_lhs ru = X -> ~ In ru rs).
  { intros u Eu Hin. destruct (forall2_in_r _ _ _ HF _ Hin) as (d & Hd & RM). apply (not_both ds g opts DE X Y (d_lhs d) HY); [rewrite <- Eu; apply RM|right; apply RM]. }
  assert (GE : forall r ru, nth_error (rs ++ flat_map (opt_made g) opts) r = Some ru -> r_lhs ru = X -> List.length rs <= r /\ nth_error (flat_map (opt_made g) opts) (r - List.length rs) = Some ru).
  { intros k u Hk Eu. destruct (Nat.lt_ge_cases k (List.length rs)) as [Hlt|Hge]; [rewrite nth_error_app1 in Hk by auto; apply nth_error_In in Hk; now apply NR in Hk|]. split; auto. now rewrite nth_error_app2 in Hk. }
  destruct (GE _ _ Hr Er) as [L1 N1], (GE _ _ Hq Eq) as [L2 N2].
  assert (EQ : ru = qu).
  { apply nth_error_In, in_flat_map in N1 as ([Y1 X1] & I1 & J1). apply nth_error_In, in_flat_map in N2 as ([Y2 X2] & I2 & J2).
    assert (X1 = X /\ X2 = X) as [-> ->] by (destruct J1 as [<-|[<-|[]]], J2 as [<-|[<-|[]]]; cbn in Er, Eq; auto). assert (Y1 = Y2) by (eapply opt_uniq; eauto). subst Y2. destruct J1 as [<-|[<-|[]]], J2 as [<-|[<-|[]]]; cbn in EM; auto; discriminate. }
  subst qu. assert (ND : NoDup (flat_map (opt_made g) opts)).
  { pose proof (de_opt2 _ _ _ DE) as ND. clear - ND. induction opts as [|[y x] l IH]; [constructor|]. cbn in ND. inversion ND as [|? ? Hn ND']; subst. cbn.
    assert (HN : forall u, r_lhs u = x -> ~ In u (flat_map (opt_made g) l)).
    { intros u Eu Hin. apply Hn. apply in_flat_map in Hin as ([y' x'] & Hi & Hj). assert (x' = x) by (destruct Hj as [<-|[<-|[]]]; cbn in Eu; auto). subst x'. apply in_map_iff. exists (y', x). auto. }
    constructor; [intros [E|Hin]; [discriminate|now apply HN in Hin]|]. constructor; auto. }
  assert (r - List.length rs = q - List.length rs); [|lia]. eapply NoDup_nth_error; eauto; [apply nth_error_Some; congruence|congruence].
Qed.

(** What can be skipped, what begins and what follows is what the declarations say. *)
Lemma skip_both : (forall X, nullable g X -> forall e, elem_sym g opts e X -> skips ds e) /\
  (forall Xs, nullable_all g Xs -> forall es, Forall2 (elem_sym g opts) es Xs -> skips_all ds es).
Proof.
  apply nullable_both.
  - intros r ru Hr _ IH e HE. destruct e as [[[|n [|n2 ns]] o] al]; [destruct HE| |].
    + destruct o; [constructor|]. destruct HE as [HN HE]. destruct (rule_elem r ru Hr) as [(i & d & Hi & _ & RM)|(Y & X & HY & EX & _)].
      * rewrite (at_fun _ _ _ _ HE (rm_lhs _ _ _ _ RM)). constructor; [now apply nth_error_In in Hi|]. apply IH. apply RM.
      * exfalso. rewrite EX in HE. exact (not_both ds g opts DE X Y n HY HE HN).
    + exfalso. destruct HE as (_ & _ & ms & Hm & _). destruct (wg_rule g W r ru Hr) as (HK & _). congruence.
  - intros es HF. inversion HF. constructor.
  - intros X Xs _ IH1 _ IH2 es HF. inversion HF; subst. constructor; auto.
Qed.
Lemma begin_both a : (forall X, first g a X -> forall e, elem_sym g opts e X -> begins ds (gname g a) e) /\
  (forall Xs, first_all g a Xs -> forall es, Forall2 (elem_sym g opts) es Xs -> begins_all ds (gname g a) es).
Proof.
  apply first_both.
  - intros X HM e HE. apply bg_tok. eapply elem_member; eauto.
  - intros r ru Hr HF IH e HE. destruct e as [[[|n [|n2 ns]] o] al]; [destruct HE| |].
    + destruct HE as [HN HE]. destruct (rule_elem r ru Hr) as [(i & d & Hi & _ & RM)|(Y & X & HY & EX & ER)].
      * destruct o.
        -- exfalso. destruct HE as (Y & HY & _). apply (not_both ds g opts DE (r_lhs ru) Y (d_lhs d) HY); [apply RM|right; apply RM].
        -- rewrite (at_fun _ _ _ _ HE (rm_lhs _ _ _ _ RM)). apply bg_rule; [now apply nth_error_In in Hi|]. apply IH. apply RM.
      * destruct o; [|exfalso; rewrite EX in HE; exact (not_both ds g opts DE X Y n HY HE HN)]. destruct HE as (Y' & HY' & HA). rewrite EX in HY'. assert (Y' = Y) by (eapply opt_uniq; eauto). subst Y'.
        destruct ER as [ER|ER]; rewrite ER in HF, IH; [inversion HF|]. specialize (IH [([n], false, None)]). assert (HB : begins_all ds (gname g a) [([n], false, None)]) by (apply IH; constructor; [split; auto|constructor]).
        inversion HB as [e0 es0 HB'|e0 es0 _ HB']; subst; [now apply (begins_opt _ _ _ _ HB')|inversion HB'].
    + exfalso. destruct HE as (_ & _ & ms & Hm & _). destruct (wg_rule g W r ru Hr) as (HK & _). congruence.
  - intros X Xs _ IH es HF. inversion HF; subst. apply bg_here. auto.
  - intros X Xs HN _ IH es HF. inversion HF; subst. apply bg_skip; auto. eapply (proj1 skip_both); eauto.
Qed.

Lemma f2_split {A B} (R : A -> B -> Prop) : forall l m d b, Forall2 R l m -> nth_error m d = Some b -> exists l1 a l2, l = l1 ++ a :: l2 /\ R a b /\ Forall2 R l2 (skipn (Datatypes.S d) m).
Proof.
  intros l m d b H. revert d. induction H as [|x y l m HR HF IH]; intros [|d] E; try discriminate.
  - cbn in E. injection E as ->. exists [], x, l. auto.
  - destruct (IH d E) as (l1 & a & l2 & -> & H1 & H2). exists (x :: l1), a, l2. auto.
Qed.
(** The symbol of [n], or of [n?] *)
Definition stands_at (X : nat) (n : ident) (o : bool) : Prop := if o then exists Y, In (Y, X) opts /\ at_name g Y n else at_name g X n /\ lower n.
Lemma stands_elem e X n o : elem_sym g opts e X -> stands_at X n o -> exists al, e = ([n], o, al).
Proof.
  intros HE HS. destruct e as [[[|m [|n2 ns]] p] al]; [destruct HE| |].
  - exists al. destruct HE as [HN HE]. destruct p, o; cbn in HS.
    + destruct HE as (Y & HY & HA), HS as (Y' & HY' & HA'). assert (Y' = Y) by (eapply opt_uniq; eauto). subst. now rewrite (at_fun _ _ _ _ HA HA').
    + exfalso. destruct HE as (Y & HY & _), HS as [HA L]. exact (not_both ds g opts DE X Y n HY HA (or_intror L)).
    + exfalso. destruct HS as (Y & HY & _). exact (not_both ds g opts DE X Y m HY HE HN).
    + destruct HS as [HA L]. now rewrite (at_fun _ _ _ _ HE HA).
  - exfalso. destruct HE as (_ & HA & _). destruct o; cbn in HS.
    + destruct HS as (Y & HY & _). destruct (de_opts _ _ _ DE _ _ HY) as (_ & k & Hk). pose proof (at_fun _ _ _ _ HA Hk). discriminate.
    + destruct HS as [HA' L]. pose proof (at_fun _ _ _ _ HA HA'). subst n. discriminate.
Qed.
Lemma rule_low r ru d X al Y n : nth_error (g_rules g) r = Some ru -> In (Y, r_lhs ru) opts -> map fst (r_rhs ru) = [] \/ map fst (r_rhs ru) = [Y] -> nth_error (r_rhs ru) d = Some (X, al) -> at_name g Y n -> X = Y /\ d = 0 /\ skipn (Datatypes.S d) (r_rhs ru) = [].
Proof.
  intros Hr HY [E|E] Hn _; destruct (r_rhs ru) as [|[Z z] l]; try discriminate; [destruct d; discriminate|]. cbn in E. injection E as -> E. apply map_eq_nil in E. subst l. destruct d as [|d]; [|destruct d; discriminate]. cbn in Hn. injection Hn as -> ->. auto.
Qed.
Lemma follow_after (CO : forall r n al, In r (rules_in ds) -> In ([n], true, al) (d_rhs r) -> is_terminal_ident n = true) a X : gfollow g a X -> forall n o, stands_at X n o -> comes_after ds (gname g a) n o.
Proof.
  assert (OP : forall r ru d X al, nth_error (g_rules g) r = Some ru -> nth_error (r_rhs ru) d = Some (X, al) -> forall n o, stands_at X n o ->
    exists dr l1 al' l2, In dr (rules_in ds) /\ rule_made g opts dr ru /\ d_rhs dr = l1 ++ ([n], o, al') :: l2 /\ Forall2 (elem_sym g opts) l2 (map fst (skipn (Datatypes.S d) (r_rhs ru)))).
  { intros r ru d Z al Hr Hn n o HS. destruct (rule_elem r ru Hr) as [(i & dr & Hi & _ & RM)|(Y & X' & HY & EX & ER)].
    - assert (En : nth_error (map fst (r_rhs ru)) d = Some Z) by (now rewrite nth_error_map, Hn). destruct (f2_split _ _ _ _ _ (rm_rhs _ _ _ _ RM) En) as (l1 & e & l2 & E & HE & HF). destruct (stands_elem _ _ _ _ HE HS) as (al' & ->).
      exists dr, l1, al', l2. splits; auto; [now apply nth_error_In in Hi|]. now rewrite <- skipn_map.
    - exfalso. subst X'. destruct (de_opt4 _ _ _ DE _ _ HY) as (d0 & m & al0 & Hd & Hin & HA). destruct (rule_low r ru d Z al Y m Hr HY ER Hn HA) as (-> & _ & _). pose proof (CO _ _ _ Hd Hin) as U. destruct o; cbn in HS.
      + destruct HS as (Y' & HY' & _). exact (not_both ds g opts DE Y Y' m HY' HA (or_introl U)).
      + destruct HS as [HA' L]. rewrite (at_fun _ _ _ _ HA' HA) in L. exact (upper_lower m U L). }
  induction 1 as [r ru d X al Hr Hn HF|r ru d X al Hr Hn HN HG IH]; intros n o HS; destruct (OP _ _ _ _ _ Hr Hn _ _ HS) as (dr & l1 & al' & l2 & Hd & RM & E & HL).
  - eapply ca_next; eauto. eapply (proj2 (begin_both a)); eauto.
  - eapply ca_last; eauto; [eapply (proj2 skip_both); eauto|]. apply IH. split; apply RM.
Qed.

Lemma first_elem d ru X al l : rule_made g opts d ru -> r_rhs ru = (X, al) :: l -> exists e es, d_rhs d = e :: es /\ elem_sym g opts e X.
Proof. intros RM E. pose proof (rm_rhs _ _ _ _ RM) as HF. rewrite E in HF. cbn in HF. inversion HF; subst. eauto. Qed.
Lemma no_elem d ru : rule_made g opts d ru -> r_rhs ru = [] -> d_rhs d = [].
Proof. intros RM E. pose proof (rm_rhs _ _ _ _ RM) as HF. rewrite E in HF. now inversion HF. Qed.

Theorem choice_made : chooses ds -> chooser g.
Proof.
  intros C. assert (CO : forall r n al, In r (rules_in ds) -> In ([n], true, al) (d_rhs r) -> is_terminal_ident n = true) by (intros r n al H1 H2; exact (proj1 (cho_opt _ C r n al "" H1 H2))).
  assert (LHS : forall i dr ru j Y X qu, nth_error (rules_in ds) i = Some dr -> rule_made g opts dr ru -> nth_error (g_rules g) j = Some qu -> In (Y, X) opts -> r_lhs qu = X -> r_lhs ru <> r_lhs qu).
  { intros i dr ru j Y X qu _ RM _ HY EX E. apply (not_both ds g opts DE X Y (d_lhs dr) HY); [rewrite <- EX, <- E; apply RM|right; apply RM]. }
  constructor.
  - intros r ru X al l q qu Hr Er Hq EX. destruct (wg_rule g W q qu Hq) as (HK & _). rewrite EX in HK. destruct (rule_elem r ru Hr) as [(i & d & Hi & _ & RM)|(Y & X' & HY & E' & ER)].
    + destruct (first_elem _ _ _ _ _ RM Er) as (e & es & Ed & HE). destruct (cho_begin _ C d e es (nth_error_In _ _ Hi) Ed) as [HN HO]. destruct (tokens_of ds e) as [|t ts] eqn:ET; [now apply HN|].
      destruct (member_elem e X t HE HO) as (a & HM & _); [rewrite ET; simpl; auto|]. exact (member_not_nonterm g a X HM HK).
    + rewrite Er in ER. destruct ER as [ER|ER]; cbn in ER; [discriminate|]. injection ER as -> _. destruct (de_opt4 _ _ _ DE _ _ HY) as (d0 & m & al0 & Hd & Hin & HA). destruct (upper_kind ds g opts DE _ _ HA (CO _ _ _ Hd Hin)) as [_ HK']. apply HK'. now apply kind_at_gsym.
  - intros r ru X al l q qu Y bl m Hr Er Hq Eq EL Hne. destruct (rule_elem r ru Hr) as [(i & d & Hi & Ei & RM)|(Y1 & X1 & HY1 & E1 & ER1)], (rule_elem q qu Hq) as [(j & f & Hj & Ej & RN)|(Y2 & X2 & HY2 & E2 & ER2)].
    + destruct (first_elem _ _ _ _ _ RM Er) as (e & es & Ed & HE), (first_elem _ _ _ _ _ RN Eq) as (e' & es' & Ed' & HE'). destruct (cho_begin _ C d e es (nth_error_In _ _ Hi) Ed) as [HN HO].
      assert (EN : d_lhs d = d_lhs f) by (apply (at_fun g (r_lhs ru)); [apply RM|rewrite EL; apply RN]).
      assert (KD : forall a, member g a X -> ~ member g a Y).
      { intros a H1 H2. apply (cho_apart _ C i j d f e es e' es' (gname g a) Hi Hj ltac:(congruence) EN Ed Ed'); eapply elem_member; eauto. }
      split; auto. intros ->. destruct (tokens_of ds e) as [|t ts] eqn:ET; [now apply HN|]. destruct (member_elem e Y t HE HO) as (a & HM & _); [rewrite ET; simpl; auto|]. exact (KD a HM HM).
    + exfalso. refine (LHS _ _ _ _ _ _ _ Hi RM Hq HY2 E2 EL).
    + exfalso. refine (LHS _ _ _ _ _ _ _ Hj RN Hr HY1 E1 (eq_sym EL)).
    + exfalso. apply Hne. assert (EX2 : X2 = X1) by congruence. rewrite EX2 in HY2, E2. assert (Y2 = Y1) by exact (opt_uniq ds g opts DE _ _ _ HY2 HY1). subst Y2. apply (opt_index r q ru qu X1 Y1); auto. rewrite Er, Eq in *. cbn in *. destruct ER1 as [ER1|ER1], ER2 as [ER2|ER2]; try discriminate. congruence.
  - intros r ru q qu Hr Er Hq Eq EL. destruct (rule_elem r ru Hr) as [(i & d & Hi & Ei & RM)|(Y1 & X1 & HY1 & E1 & ER1)], (rule_elem q qu Hq) as [(j & f & Hj & Ej & RN)|(Y2 & X2 & HY2 & E2 & ER2)].
    + subst r q. apply (cho_empty _ C i j d f Hi Hj); [apply (at_fun g (r_lhs ru)); [apply RM|rewrite EL; apply RN]|eapply no_elem; eauto|eapply no_elem; eauto].
    + exfalso. refine (LHS _ _ _ _ _ _ _ Hi RM Hq HY2 E2 EL).
    + exfalso. refine (LHS _ _ _ _ _ _ _ Hj RN Hr HY1 E1 (eq_sym EL)).
    + apply (opt_index r q ru qu X1 Y1); auto; [congruence|]. now rewrite Er, Eq.
  - intros r ru q qu Y bl m a Hr Er Hq Eq EL HM HG. destruct (rule_elem r ru Hr) as [(i & d & Hi & Ei & RM)|(Y1 & X1 & HY1 & E1 & ER1)], (rule_elem q qu Hq) as [(j & f & Hj & Ej & RN)|(Y2 & X2 & HY2 & E2 & ER2)].
    + destruct (first_elem _ _ _ _ _ RN Eq) as (e & es & Ed & HE). assert (EN : d_lhs d = d_lhs f) by (apply (at_fun g (r_lhs ru)); [apply RM|rewrite EL; apply RN]).
      apply (cho_after _ C d f e es (gname g a) (nth_error_In _ _ Hi) (nth_error_In _ _ Hj) EN (no_elem _ _ RM Er) Ed (elem_member _ _ _ HE HM)). eapply follow_after; eauto. split; apply RM.
    + refine (LHS _ _ _ _ _ _ _ Hi RM Hq HY2 E2 EL).
    + refine (LHS _ _ _ _ _ _ _ Hj RN Hr HY1 E1 (eq_sym EL)).
    + assert (EX2 : X2 = X1) by congruence. rewrite EX2 in HY2, E2. assert (Y2 = Y1) by exact (opt_uniq ds g opts DE _ _ _ HY2 HY1). subst Y2. rewrite Eq in ER2. cbn in ER2. destruct ER2 as [ER2|ER2]; [discriminate|]. injection ER2 as -> _.
      destruct (de_opt4 _ _ _ DE _ _ HY1) as (d0 & k & al0 & Hd & Hin & HA). destruct (cho_opt _ C d0 k al0 (gname g a) Hd Hin) as [U HC]. apply HC; [rewrite (toks_opt k true al0 false None); apply (elem_member _ Y1); auto; split; [left; exact U|exact HA]|]. eapply follow_after; eauto. rewrite E1. cbn. eauto.
  - intros r ru X al ms Hr Hin HK. destruct (rule_elem r ru Hr) as [(i & d & Hi & Ei & RM)|(Y1 & X1 & HY1 & E1 & ER1)].
    + destruct (forall2_in_r _ _ _ (rm_rhs _ _ _ _ RM) X) as (e & He & HE); [apply in_map_iff; exists (X, al); auto|]. pose proof (cho_once _ C d e (nth_error_In _ _ Hi) He) as ND. destruct e as [[[|n [|n2 ns]] o] al']; [destruct HE| |].
      * destruct HE as [HN HE]. destruct o; [exfalso; destruct HE as (Y & HY & _); destruct (de_opts _ _ _ DE _ _ HY) as (_ & k & Hk); pose proof (opt_nonterm ds g opts DE k X Hk); congruence|].
        destruct HN as [U|L]; [|pose proof (lower_kind ds g opts DE X n HE L); congruence]. destruct (sym_decl ds g opts DE _ _ HE (upper_nonempty _ U)) as (_ & _ & HC). apply kind_at_gsym in HK. rewrite HK in HC. cbn in HC. cbn in ND. unfold upper in U. rewrite U, <- HC in ND. now apply NoDup_map_inv in ND.
      * destruct HE as (_ & _ & ms' & Hm & HF). rewrite HK in Hm. injection Hm as <-. cbn in ND. assert (EM : map (gname g) ms = n :: n2 :: ns).
        { clear - HF. induction HF as [|x y l m Hx HF IH]; cbn; auto. rewrite IH. f_equal. now apply at_gname. }
        rewrite <- EM in ND. now apply NoDup_map_inv in ND.
    + assert (X = Y1). { apply (in_map fst) in Hin. cbn in Hin. destruct ER1 as [ER1|ER1]; rewrite ER1 in Hin; [destruct Hin|destruct Hin as [<-|[]]; auto]. }
      subst X. destruct (de_opt4 _ _ _ DE _ _ HY1) as (d0 & k & al0 & Hd & Hin0 & HA). pose proof (cho_once _ C d0 _ Hd Hin0) as ND. pose proof (CO _ _ _ Hd Hin0) as U. destruct (sym_decl ds g opts DE _ _ HA (upper_nonempty _ U)) as (_ & _ & HC). apply kind_at_gsym in HK. rewrite HK in HC. cbn in HC. cbn in ND. rewrite U, <- HC in ND. now apply NoDup_map_inv in ND.
Qed.

(** ** Every rule can be used *)
Lemma live_both : (forall e, yields ds e -> forall X, elem_sym g opts e X -> lively g [X]) /\ (forall es, yields_all ds es -> forall Xs, Forall2 (elem_sym g opts) es Xs -> lively g Xs).
Proof.
  assert (OPT : forall Y X, In (Y, X) opts -> nullable g X).
  { intros Y X HY. destruct (de_rules _ _ _ DE) as (rs & HR & _). assert (Hin : In (mkRule X [] COptNone None None) (g_rules g)) by (rewrite HR; apply in_app_iff; right; apply in_flat_map; exists (Y, X); simpl; auto).
    apply In_nth_error in Hin as (r & Hr). apply (n_rule g r _ Hr). constructor. }
  assert (OE : forall n al X, elem_sym g opts ([n], true, al) X -> lively g [X]).
  { intros n al X [_ (Y & HY & _)]. left. constructor; [eauto|constructor]. }
  apply yields_both.
  - intros e t Ht X HE. destruct (is_optional e) eqn:EO.
    + destruct e as [[[|n [|n2 ns]] o] al]; try discriminate. cbn in EO. subst o. eauto.
    + destruct (member_elem e X t HE EO Ht) as (a & HM & _). right. exists a. apply f_here. now apply f_term.
  - eauto.
  - intros r o al Hr _ IH X HE. destruct o; [eauto|]. destruct HE as [HN HE]. destruct (de_rules _ _ _ DE) as (rs & HR & HF). destruct (forall2_in_l _ _ _ HF r Hr) as (ru & Hu & RM).
    assert (Hin : In ru (g_rules g)) by (rewrite HR; apply in_app_iff; auto). apply In_nth_error in Hin as (k & Hk). assert (EX : r_lhs ru = X) by (apply (de_uniq _ _ _ DE _ _ (d_lhs r)); [apply RM|exact HE|apply lower_nonempty, RM]). subst X.
    destruct (IH (map fst (r_rhs ru)) (rm_rhs _ _ _ _ RM)) as [HN'|[b HB]]; [left; constructor; [eapply n_rule; eauto|constructor]|right; exists b; apply f_here; eapply f_rule; eauto].
  - intros Xs HF. inversion HF. left. constructor.
  - intros e es _ IH1 _ IH2 Xs HF. inversion HF as [|? X ? Xs' HE HF']; subst. destruct (IH1 X HE) as [HN|[b HB]].
    + inversion HN; subst. destruct (IH2 Xs' HF') as [HN'|[b HB]]; [left; now constructor|right; exists b; now apply f_skip].
    + right. exists b. inversion HB as [? ? HB'|? ? _ HB']; subst; [now apply f_here|inversion HB'].
Qed.
Lemma yields_in es e : yields_all ds es -> In e es -> yields ds e.
Proof. induction 1 as [|e0 es He Hes IH]; intros Hin; [destruct Hin|destruct Hin as [->|Hin]; auto]. Qed.
Lemma yields_each es : (forall e, In e es -> yields ds e) -> yields_all ds es.
Proof. induction es as [|e es IH]; constructor; auto using in_eq, in_cons. Qed.
Lemma needed_made : classes_begin ds -> chooses ds -> all_needed ds -> (forall r ru, nth_error (g_rules g) r = Some ru -> reached g (r_lhs ru)) /\ (forall r ru, nth_error (g_rules g) r = Some ru -> forall d, lively g (map fst (skipn d (r_rhs ru)))).
Proof.
  intros CB C AN.
  assert (RC : forall n, leads_to ds n -> forall X, at_name g X n -> lower n -> reached g X).
  { intros n H. induction H as [s Hs|r n o al Hr HL IH Hin]; intros X HA L.
    - destruct (de_start _ _ _ DE) as (n & Hn & HA' & _). assert (n = s) by congruence. subst n. rewrite (de_uniq _ _ _ DE _ _ _ HA HA' (lower_nonempty _ L)). constructor.
    - destruct (de_rules _ _ _ DE) as (rs & HR & HF). destruct (forall2_in_l _ _ _ HF r Hr) as (ru & Hu & RM). assert (Hi : In ru (g_rules g)) by (rewrite HR; apply in_app_iff; auto). apply In_nth_error in Hi as (k & Hk).
      destruct (forall2_in_l _ _ _ (rm_rhs _ _ _ _ RM) _ Hin) as (Z & HZ & HE). apply in_map_iff in HZ as ([Z' z] & EZ & HZ). cbn in EZ. subst Z'. pose proof (rc_rule g k ru Z z Hk (IH _ (rm_lhs _ _ _ _ RM) (rm_low _ _ _ _ RM)) HZ) as RZ.
      destruct o; [exfalso; pose proof (proj1 (cho_opt _ C r n al "" Hr Hin)) as U; exact (upper_lower n U L)|]. destruct HE as [_ HE]. now rewrite (de_uniq _ _ _ DE _ _ _ HA HE (lower_nonempty _ L)). }
  assert (RD : forall r ru, In r (rules_in ds) -> rule_made g opts r ru -> reached g (r_lhs ru)) by (intros r ru Hr RM; apply (RC (d_lhs r)); [now apply AN|apply RM|apply RM]).
  split; intros r ru Hr; destruct (rule_elem r ru Hr) as [(i & d & Hi & Ei & RM)|(Y1 & X1 & HY1 & E1 & ER1)].
  - apply (RD d); auto. now apply nth_error_In in Hi.
  - destruct (de_opt4 _ _ _ DE _ _ HY1) as (d0 & k & al0 & Hd & Hin & HA). destruct (de_rules _ _ _ DE) as (rs & HR & HF). destruct (forall2_in_l _ _ _ HF d0 Hd) as (u & Hu & RM). assert (Hi : In u (g_rules g)) by (rewrite HR; apply in_app_iff; auto). apply In_nth_error in Hi as (j & Hj).
    destruct (forall2_in_l _ _ _ (rm_rhs _ _ _ _ RM) _ Hin) as (Z & HZ & HE). apply in_map_iff in HZ as ([Z' z] & EZ & HZ). cbn in EZ. subst Z'. destruct HE as [HN (Y' & HY' & HA')].
    assert (Y' = Y1) by (apply (de_uniq _ _ _ DE _ _ k HA' HA); destruct HN; [now apply upper_nonempty|now apply lower_nonempty]). subst Y'.
    assert (Z = X1). { pose proof (de_opt1 _ _ _ DE) as ND. clear - ND HY1 HY'. induction opts as [|[y x] l IH]; [destruct HY1|]. cbn in ND. inversion ND as [|? ? Hni ND']; subst. destruct HY1 as [E|H1], HY' as [E'|H2]; try congruence; auto; exfalso; apply Hni; [injection E as -> ->|injection E' as -> ->]; [apply (in_map fst) in H2|apply (in_map fst) in H1]; auto. }
    subst Z. rewrite E1. apply (rc_rule g j u X1 z Hj (RD _ _ Hd RM) HZ).
  - intros k. destruct (AN d (nth_error_In _ _ Hi)) as [_ HY]. pose proof (rm_rhs _ _ _ _ RM) as HF. rewrite <- skipn_map.
    apply (proj2 live_both (skipn k (d_rhs d))).
    + apply yields_each. intros e He. apply (yields_in (d_rhs d)); auto. rewrite <- (firstn_skipn k). apply in_app_iff. auto.
    + clear - HF. revert k. induction HF; intros [|k]; cbn; auto.
  - intros k. destruct ER1 as [ER1|ER1]; rewrite <- skipn_map, ER1.
    + left. rewrite skipn_nil. constructor.
    + destruct k as [|k]; [|left; cbn; rewrite skipn_nil; constructor]. cbn [skipn]. destruct (de_opt4 _ _ _ DE _ _ HY1) as (d0 & n & al0 & Hd & Hin & HA). pose proof (proj1 (cho_opt _ C d0 n al0 "" Hd Hin)) as U.
      assert (HT : exists t, In t (tokens_of ds ([n], false, al0))).
      { cbn. rewrite U. destruct (class_of ds n) as [ms|] eqn:EC; [destruct (CB n ms EC) as (m & l & -> & _); exists m; simpl; auto|exists n; simpl; auto]. }
      destruct HT as (t & HT). destruct (member_elem ([n], false, al0) Y1 t) as (a & HM & _); auto; [split; auto|]. right. exists a. apply f_here. now apply f_term.
Qed.
End Choice.

Lemma written_choice ds g : chooses ds -> written ds g -> wf_grammar g /\ chooser g.
Proof. intros C HW. pose proof (Claims13.written_wf ds g HW) as W. destruct HW as [_ (opts & DE)]. split; auto. eapply choice_made; eauto. Qed.

(** No conflict is reported, whatever precedences are declared. *)
Theorem choice_quiet ds fuel ord : chooses ds -> hash_order ord -> build fuel ord ds <> GErr EConflicts.
Proof.
  intros C Ho HB. destruct (rejected_for_a_reason fuel ord ds EConflicts Ho ltac:(intros [E|E]; discriminate) HB) as (g & HW & HC). destruct (written_choice ds g C HW) as [W CH]. exact (proj1 (chooser_quiet g W CH) HC).
Qed.
(** If every rule can be used, the only reasons to reject the declarations are other faults. *)
Theorem choice_accepted ds : no_self_fallback ds -> elems_named ds -> classes_begin ds -> flat_decls ds -> chooses ds -> all_needed ds ->
  ((exists b, expands ds b) <-> forall e, e <> EConflicts -> e <> ENotReduced -> ~ fault ds e).
Proof.
  intros H1 H2 H3 H4 C AN. rewrite (Claims13.accepted_exactly ds H1 H2 H3 H4). split; [intros H e _ _; apply H|]. intros H e HF.
  assert (e = EConflicts \/ e = ENotReduced) as [-> | ->] by (destruct e; auto; exfalso; refine (H _ _ _ HF); discriminate).
  - destruct HF as (g & HW & HC). destruct (written_choice ds g C HW) as [W CH]. exact (proj1 (chooser_quiet g W CH) HC).
  - destruct HF as (g & r & HW & HL). destruct (written_choice ds g C HW) as [W CH]. destruct HW as [_ (opts & DE)]. destruct (needed_made ds g opts DE H3 C AN) as [R1 R2]. exact (chooser_needed g W CH (decls_flat ds g opts DE W H4) R1 R2 r HL).
Qed.

(** ** A check: [sk] lists the names that can be skipped, [bg] what tokens can begin a name, [af]
    what can come after it. *)
Section Check.
Context (ds : list decl) (sk : list ident) (bg : list (ident * ident)) (af : list (ident * ident * bool)).
Definition mem_b (n : ident) (l : list ident) : bool := existsb (String.eqb n) l.
Definition skip_b (e : rhs_elem) : bool := match e with ([n], o, _) => o || mem_b n sk | _ => false end.
Definition begin_l (e : rhs_elem) : list ident := tokens_of ds e ++ match e with ([n], _, _) => map fst (filter (fun p => String.eqb (snd p) n) bg) | _ => [] end.
Fixpoint begin_all (es : list rhs_elem) : list ident := match es with [] => [] | e :: es => begin_l e ++ (if skip_b e then begin_all es else []) end.
Definition in2 (t n : ident) : bool := existsb (fun p => String.eqb (fst p) t && String.eqb (snd p) n) bg.
Definition in3 (t n : ident) (o : bool) : bool := existsb (fun p => String.eqb (fst (fst p)) t && String.eqb (snd (fst p)) n && Bool.eqb (snd p) o) af.
Fixpoint after_b (lhs : ident) (es : list rhs_elem) : bool :=
  match es with
  | [] => true
  | e :: l2 => after_b lhs l2 && match e with
      | ([n], o, _) => forallb (fun t => in3 t n o) (begin_all l2) && (negb (forallb skip_b l2) || forallb (fun p => negb (String.eqb (snd (fst p)) lhs && negb (snd p)) || in3 (fst (fst p)) n o) af)
      | _ => true
      end
  end.
Definition table_b : bool := forallb (fun r => (negb (forallb skip_b (d_rhs r)) || mem_b (d_lhs r) sk) && forallb (fun t => in2 t (d_lhs r)) (begin_all (d_rhs r)) && after_b (d_lhs r) (d_rhs r)) (rules_in ds).

Lemma mem_b_in n l : mem_b n l = true <-> In n l.
Proof. unfold mem_b. rewrite existsb_exists. split; [intros (x & H & E); apply String.eqb_eq in E; now subst|intros H; exists n; now rewrite String.eqb_refl]. Qed.
Lemma in2_in t n : in2 t n = true -> In (t, n) bg.
Proof. unfold in2. rewrite existsb_exists. intros ([x y] & H & E). apply andb_true_iff in E as [E1 E2]. apply String.eqb_eq in E1, E2. cbn in *. now subst. Qed.
Lemma in3_in t n o : in3 t n o = true <-> In (t, n, o) af.
Proof.
  unfold in3. rewrite existsb_exists. split.
  - intros ([[x y] z] & H & E). apply andb_true_iff in E as [E E3]. apply andb_true_iff in E as [E1 E2]. apply String.eqb_eq in E1, E2. apply Bool.eqb_prop in E3. cbn in *. now subst.
  - intros H. exists (t, n, o). cbn. now rewrite !String.eqb_refl, Bool.eqb_reflx.
Qed.
Hypothesis TB : table_b = true.
Lemma table_rule r : In r (rules_in ds) -> (forallb skip_b (d_rhs r) = true -> In (d_lhs r) sk) /\ (forall t, In t (begin_all (d_rhs r)) -> In (t, d_lhs r) bg) /\ after_b (d_lhs r) (d_rhs r) = true.
Proof.
  intros Hr. unfold table_b in TB. rewrite forallb_forall in TB. specialize (TB r Hr). apply andb_true_iff in TB as [T1 T3]. apply andb_true_iff in T1 as [T1 T2]. splits; auto.
  - intros E. rewrite E in T1. cbn in T1. now apply mem_b_in.
  - intros t Ht. rewrite forallb_forall in T2. now apply in2_in, T2.
Qed.
Lemma skip_table : (forall e, skips ds e -> skip_b e = true) /\ (forall es, skips_all ds es -> forallb skip_b es = true).
Proof.
  apply skips_both; auto.
  - intros r o al Hr _ IH. cbn. apply orb_true_iff. right. apply mem_b_in. now apply (table_rule r Hr).
  - intros e es _ IH1 _ IH2. cbn. now rewrite IH1.
Qed.
Lemma begin_table t : (forall e, begins ds t e -> In t (begin_l e)) /\ (forall es, begins_all ds t es -> In t (begin_all es)).
Proof.
  apply begins_both.
  - intros e H. apply in_app_iff. auto.
  - intros r o al Hr _ IH. apply in_app_iff. right. cbn. apply in_map_iff. exists (t, d_lhs r). split; auto. apply filter_In. split; [now apply (table_rule r Hr)|cbn; apply String.eqb_refl].
  - intros e es _ IH. cbn. apply in_app_iff. auto.
  - intros e es HS _ IH. cbn. rewrite (proj1 skip_table e HS). apply in_app_iff. auto.
Qed.
Lemma after_split lhs l1 n o al l2 : after_b lhs (l1 ++ ([n], o, al) :: l2) = true -> (forall t, In t (begin_all l2) -> In (t, n, o) af) /\ (forallb skip_b l2 = true -> forall t, In (t, lhs, false) af -> In (t, n, o) af).
Proof.
  induction l1 as [|e l1 IH]; cbn [app after_b].
  - intros H. apply andb_true_iff in H as [_ H]. apply andb_true_iff in H as [H1 H2]. rewrite forallb_forall in H1. split; [intros t Ht; now apply in3_in, H1|]. intros E t Ht. rewrite E in H2. cbn [negb orb] in H2. rewrite forallb_forall in H2. specialize (H2 _ Ht). cbn [fst snd] in H2. rewrite String.eqb_refl in H2. cbn in H2. now apply in3_in.
  - intros H. apply andb_true_iff in H as [H _]. auto.
Qed.
Lemma after_table t n o : comes_after ds t n o -> In (t, n, o) af.
Proof.
  induction 1 as [r l1 n o al l2 Hr E HB|r l1 n o al l2 Hr E HS _ IH]; destruct (table_rule r Hr) as (_ & _ & HA); rewrite E in HA; destruct (after_split _ _ _ _ _ _ HA) as [K1 K2].
  - apply K1. now apply begin_table.
  - apply K2; auto. now apply skip_table.
Qed.
Definition apart_b (l m : list ident) : bool := forallb (fun t => negb (mem_b t m)) l.
Fixpoint once_b (l : list ident) : bool := match l with [] => true | a :: l => negb (mem_b a l) && once_b l end.
Lemma apart_ok l m t : apart_b l m = true -> In t l -> ~ In t m.
Proof. unfold apart_b. rewrite forallb_forall. intros H Ht Hm. apply H, negb_true_iff in Ht. apply mem_b_in in Hm. congruence. Qed.
Lemma once_ok l : once_b l = true -> NoDup l.
Proof. induction l as [|a l IH]; intros H; constructor; cbn in H; apply andb_true_iff in H as [H1 H2]; auto. intros Hin. apply mem_b_in in Hin. rewrite Hin in H1. discriminate. Qed.
Definition differ_b (r q : drule) : bool :=
  negb (String.eqb (d_lhs r) (d_lhs q)) ||
  match d_rhs r, d_rhs q with
  | [], [] => false
  | [], e :: _ | e :: _, [] => forallb (fun t => negb (in3 t (d_lhs r) false)) (tokens_of ds e)
  | e :: _, f :: _ => apart_b (tokens_of ds e) (tokens_of ds f)
  end.
Definition elem_b (e : rhs_elem) : bool := once_b (tokens_of ds e) &&
  match e with ([n], true, _) => is_terminal_ident n && forallb (fun t => negb (in3 t n true)) (tokens_of ds e) | _ => true end.
Definition rule_b (r : drule) : bool :=
  match d_rhs r with [] => true | e :: _ => match tokens_of ds e with [] => false | _ => negb (is_optional e) end end && forallb elem_b (d_rhs r).
Definition chooses_b : bool := forallb rule_b (rules_in ds) &&
  forallb (fun i => forallb (fun j => (i =? j) || match nth_error (rules_in ds) i, nth_error (rules_in ds) j with Some r, Some q => differ_b r q | _, _ => false end) (seq 0 (List.length (rules_in ds)))) (seq 0 (List.length (rules_in ds))).
Theorem chooses_b_ok : chooses_b = true -> chooses ds.
Proof.
  intros H. apply andb_true_iff in H as [H1 H2]. rewrite forallb_forall in H1.
  assert (DI : forall i j r q, nth_error (rules_in ds) i = Some r -> nth_error (rules_in ds) j = Some q -> i <> j -> d_lhs r = d_lhs q -> differ_b r q = true).
  { intros i j r q Hi Hj Hne _. rewrite forallb_forall in H2. assert (Li : In i (seq 0 (List.length (rules_in ds)))) by (apply in_seq; split; [lia|cbn; apply nth_error_Some; congruence]). specialize (H2 i Li). cbn beta in H2. rewrite forallb_forall in H2.
    assert (Lj : In j (seq 0 (List.length (rules_in ds)))) by (apply in_seq; split; [lia|cbn; apply nth_error_Some; congruence]). specialize (H2 j Lj). apply Nat.eqb_neq in Hne. rewrite Hne in H2. cbn [orb] in H2. now rewrite Hi, Hj in H2. }
  constructor.
  - intros r e es Hr E. specialize (H1 r Hr). unfold rule_b in H1. rewrite E in H1. apply andb_true_iff in H1 as [H1 _]. destruct (tokens_of ds e); [discriminate|]. split; [discriminate|]. now apply negb_true_iff in H1.
  - intros i j r q e es f fs t Hi Hj Hne EL E F Ht. pose proof (DI i j r q Hi Hj Hne EL) as HD. unfold differ_b in HD. rewrite EL, String.eqb_refl, E, F in HD. cbn [negb orb] in HD. eapply apart_ok; eauto.
  - intros i j r q Hi Hj EL E F. destruct (Nat.eq_dec i j) as [|Hne]; auto. pose proof (DI i j r q Hi Hj Hne EL) as HD. unfold differ_b in HD. rewrite EL, String.eqb_refl, E, F in HD. discriminate.
  - intros r q e es t Hr Hq EL E F Ht HC. apply In_nth_error in Hr as (i & Hi). apply In_nth_error in Hq as (j & Hj). assert (Hne : i <> j) by (intros ->; congruence). pose proof (DI i j r q Hi Hj Hne EL) as HD. unfold differ_b in HD. rewrite E, F in HD. assert (ES : String.eqb (d_lhs r) (d_lhs q) = true) by (apply String.eqb_eq; exact EL). rewrite ES in HD. cbn [negb orb] in HD.
    rewrite forallb_forall in HD. specialize (HD t Ht). apply negb_true_iff in HD. apply after_table, in3_in in HC. congruence.
  - intros r n al t Hr Hin. specialize (H1 r Hr). apply andb_true_iff in H1 as [_ H1]. rewrite forallb_forall in H1. specialize (H1 _ Hin). apply andb_true_iff in H1 as [_ H1]. apply andb_true_iff in H1 as [U H1]. split; auto. intros Ht HC. rewrite forallb_forall in H1. specialize (H1 t Ht). apply negb_true_iff in H1. apply after_table, in3_in in HC. congruence.
  - intros r e Hr Hin. specialize (H1 r Hr). apply andb_true_iff in H1 as [_ H1]. rewrite forallb_forall in H1. specialize (H1 _ Hin). apply andb_true_iff in H1 as [H1 _]. now apply once_ok.
Qed.
End Check.
