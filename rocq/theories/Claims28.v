(** The shorthands of the documentation: a rule without a block, [X?] and [A|B] (C53). *)
From Verif Require Import Base Syntax BaseFacts FrontEnd First States Actions Tables Runtime User Spec WfGrammar FrontFacts DeclFacts BuildFacts DeclSpec DeclMore MeanSpec GramFacts LangFacts TypeFacts MeanFacts TypeDecl FaultSpec Main Claims Claims6 Claims13.
From Coq Require Import Permutation.
From Verif Require Claims23 FaultBack.
Open Scope string_scope. Open Scope nat_scope. Open Scope list_scope.

(** ** Declarations other than rules *)
Definition is_rule (d : decl) : bool := match d with DRule _ _ _ _ => true | _ => false end.
Definition others (ds : list decl) : list decl := filter (fun d => negb (is_rule d)) ds.
Lemma first_others {B} (f : decl -> option B) : (forall l r c p, f (DRule l r c p) = None) -> forall ds, DeclSpec.first_of f ds = DeclSpec.first_of f (others ds).
Proof. intros Hf. induction ds as [|d ds IH]; auto. cbn. destruct d; cbn; rewrite ?IH, ?Hf; auto. Qed.
Lemma class_others n ds : class_of ds n = class_of (others ds) n.
Proof. induction ds as [|d ds IH]; auto. cbn. destruct d; cbn; rewrite ?IH; auto. Qed.
Lemma assoc_others n ds : forall k, assoc_from k ds n = assoc_from k (others ds) n.
Proof. induction ds as [|d ds IH]; intros k; auto. cbn. destruct d; cbn; rewrite ?IH; auto. Qed.

(** The two lists differ in rules only, and the first rules have the same left-hand side. *)
Section Frame.
Context (ds1 ds2 : list decl) (EO : others ds2 = others ds1) (EH : option_map d_lhs (hd_error (rules_in ds2)) = option_map d_lhs (hd_error (rules_in ds1))).
Lemma fr_first {B} (f : decl -> option B) : (forall l r c p, f (DRule l r c p) = None) -> DeclSpec.first_of f ds2 = DeclSpec.first_of f ds1.
Proof. intros Hf. rewrite (first_others f Hf ds2), (first_others f Hf ds1). now rewrite EO. Qed.
Lemma fr_class n : class_of ds2 n = class_of ds1 n.
Proof. rewrite (class_others n ds2), (class_others n ds1). now rewrite EO. Qed.
Lemma fr_raw n : raw_type ds2 n = raw_type ds1 n.
Proof. unfold raw_type, extra_token_of, type_of. rewrite !fr_first by reflexivity. now rewrite fr_class. Qed.
Lemma fr_elem e : elem_type ds2 e = elem_type ds1 e.
Proof. destruct e as [[[|n [|]] o] al]; cbn; auto. now rewrite fr_raw. Qed.
Lemma fr_name n : name_type ds2 n = name_type ds1 n.
Proof.
  unfold name_type, own_of, is_wild, wildcard_of, default_type_of. rewrite !fr_first by reflexivity. rewrite fr_class, fr_raw. destruct (class_of ds1 n) as [[|c l]|]; auto. now rewrite fr_raw.
Qed.
Lemma fr_start : start_of ds2 = start_of ds1.
Proof. unfold start_of, start_line. rewrite fr_first by reflexivity. now rewrite EH. Qed.
Lemma fr_plain : plain ds1 -> plain ds2.
Proof.
  intros [P1 P2]. split; [|unfold wildcard_of; now rewrite fr_first by reflexivity]. intros n. unfold assoc_of. rewrite (assoc_others n ds2), EO, <- (assoc_others n ds1). apply P1.
Qed.
Lemma fr_fall : no_fallback ds1 -> no_fallback ds2.
Proof. intros NF a. unfold fallback_of. rewrite fr_first by reflexivity. apply NF. Qed.
End Frame.

(** Meanings carry over if every rule of one list can be followed in the other. *)
Lemma transfer ds1 ds2 {V X E} (sm : sem V X E) : (forall n, class_of ds2 n = class_of ds1 n) ->
  (forall d w vs v x x1 x2, In d (rules_in ds1) -> means_all ds2 sm eq (d_rhs d) w x x1 vs -> result ds1 sm d vs x1 = Some (x2, inl v) -> means ds2 sm eq (d_lhs d) w x x2 v) ->
  forall n w x x' v, means ds1 sm eq n w x x' v -> means ds2 sm eq n w x x' v.
Proof.
  intros HC HR. apply (means_mind ds1 V X E sm eq (means ds2 sm eq) (means_elem ds2 sm eq) (means_all ds2 sm eq)); try (intros; econstructor; eauto; fail).
  - intros a v c n x <- [U Hst]. apply me_tok with (b := a); auto. split; auto. now rewrite HC.
  - intros d w vs v x x1 x2 Hd _ IH HRes. eauto.
Qed.
(** The answers of two lists of declarations whose meanings carry over *)
Lemma both_answer ds1 ds2 b1 b2 {V X E} (sm : sem V X E) : expands ds1 b1 -> usable ds1 b1 -> expands ds2 b2 -> usable ds2 b2 ->
  plain ds1 -> no_fallback ds1 -> types_ok ds1 -> plain ds2 -> no_fallback ds2 -> types_ok ds2 -> start_of ds2 = start_of ds1 -> (forall s, start_of ds1 = Some s -> name_type ds2 s = name_type ds1 s) ->
  (forall s w x x' v, start_of ds1 = Some s -> means ds1 sm eq s w x x' v <-> means ds2 sm eq s w x x' v) ->
  forall ks1 ks2, tokens_wf b1 ks1 -> tokens_wf b2 ks2 -> reading b1 sm ks1 = reading b2 sm ks2 ->
  forall x r x', (answers b1 sm x ks1 r x' -> answers_or_overflows b2 sm x ks2 r x') /\ (answers b2 sm x ks2 r x' -> answers_or_overflows b1 sm x ks1 r x').
Proof.
  intros E1 U1 E2 U2 P1 N1 T1 P2 N2 T2 HS HN HM ks1 ks2 K1 K2 HR x r x'. split.
  - apply (same_meaning ds1 ds2 b1 b2); auto; [intros; now rewrite HN|]. intros s w y y' v Hs. now apply HM.
  - apply (same_meaning ds2 ds1 b2 b1); auto; [intros s; rewrite HS; auto|]. intros s w y y' v Hs. rewrite HS in Hs. now apply HM.
Qed.

Lemma all_app ds {V X E} (sm : sem V X E) es1 : forall es2 w x x' vs, means_all ds sm eq (es1 ++ es2) w x x' vs <->
  exists w1 w2 x1 vs1 vs2, w = w1 ++ w2 /\ vs = vs1 ++ vs2 /\ List.length vs1 = List.length es1 /\ means_all ds sm eq es1 w1 x x1 vs1 /\ means_all ds sm eq es2 w2 x1 x' vs2.
Proof.
  induction es1 as [|e es1 IH]; intros es2 w x x' vs; cbn [app].
  - split; [intros H; exists [], w, x, [], vs; splits; auto; constructor|]. intros (w1 & w2 & x1 & vs1 & vs2 & -> & -> & L & H1 & H2). inversion H1; subst. exact H2.
  - split.
    + intros H. inversion H as [|e0 es0 u1 u2 y y1 y2 v us He Hes]; subst. apply IH in Hes as (w1 & w2 & x1 & vs1 & vs2 & -> & -> & L & H1 & H2).
      exists (u1 ++ w1), w2, x1, (v :: vs1), vs2. splits; [now rewrite app_assoc|auto|cbn; congruence|econstructor; eauto|auto].
    + intros (w1 & w2 & x1 & vs1 & vs2 & -> & -> & L & H1 & H2). inversion H1 as [|e0 es0 u1 u2 y y1 y2 v us He Hes]; subst. rewrite <- app_assoc. cbn [app]. econstructor; eauto. apply IH. cbn in L.
      exists u2, w2, x1, us, vs2. splits; auto.
Qed.
Lemma all_length ds {V X E} (sm : sem V X E) es : forall w x x' vs, means_all ds sm eq es w x x' vs -> List.length vs = List.length es.
Proof. induction es as [|e es IH]; intros w x x' vs H; inversion H; subst; cbn; auto. f_equal. eauto. Qed.
Lemma chosen_app {V} p es1 es2 (vs1 vs2 : list V) : List.length vs1 = List.length es1 -> chosen p (es1 ++ es2) (vs1 ++ vs2) = chosen p es1 vs1 ++ chosen p es2 vs2.
Proof. revert vs1. induction es1 as [|e es1 IH]; intros [|v vs1] L; try discriminate; auto. unfold chosen in *. cbn. injection L as L. destruct (p e); cbn; rewrite ?(IH vs1 L); auto. Qed.
Lemma chosen_cons {V} p e es (v : V) vs : chosen p (e :: es) (v :: vs) = if p e then v :: chosen p es vs else chosen p es vs.
Proof. unfold chosen. cbn. now destruct (p e). Qed.
Lemma chosen_none {V} p es : (forall e, In e es -> p e = false) -> forall vs : list V, chosen p es vs = [].
Proof. induction es as [|e es IH]; intros H [|v vs]; auto. rewrite chosen_cons, (H e) by now left. apply IH. intros e' He. apply H. now right. Qed.
Lemma rules_app l1 l2 : rules_in (l1 ++ l2) = rules_in l1 ++ rules_in l2.
Proof. induction l1 as [|d l1 IH]; auto. cbn. destruct d; rewrite ?IH; auto. Qed.

(** ** A rule without a block *)
(** The rule [l ::= pre n post] has no block and no aliases, [l] has a type, and the element [n]
    is the only one with a type.  Written out it binds [n] and its block is [{ n }]. *)
Inductive handed (ds : list decl) (K : nat -> Prop) : decl -> decl -> Prop :=
| hd_same d : handed ds K d d
| hd_rule l pre ns o post p al c t : type_of ds l = Some t -> elem_type ds (ns, o, None) <> None ->
    (forall e, In e (pre ++ post) -> elem_type ds e = None /\ is_aliased e = false) -> K c ->
    handed ds K (DRule l (pre ++ (ns, o, None) :: post) None p) (DRule l (pre ++ (ns, o, Some al) :: post) (Some c) p).

Section Hand.
Context (ds1 ds2 : list decl) {V X E : Type} (sm : sem V X E).
(** The block gives back the value it gets. *)
Definition gives_back (c : nat) : Prop := forall v x, u_block sm c [v] x = (x, inl v).
Context (HH : Forall2 (handed ds1 gives_back) ds1 ds2).

Lemma hd_others : others ds2 = others ds1.
Proof. revert HH. generalize ds1 at 1 as D. intros D HF. unfold others in *. induction HF as [|d d' l l' Hd HF IH]; auto. destruct Hd as [d|]; cbn [filter is_rule negb]; rewrite IH; auto. Qed.
Definition handed_rule (d d' : drule) : Prop := d' = d \/ exists pre ns o post al c t, type_of ds1 (d_lhs d) = Some t /\ elem_type ds1 (ns, o, None) <> None /\
  (forall e, In e (pre ++ post) -> elem_type ds1 e = None /\ is_aliased e = false) /\ gives_back c /\
  d_code d = None /\ d_rhs d = pre ++ (ns, o, None) :: post /\ d_lhs d' = d_lhs d /\ d_code d' = Some c /\ d_rhs d' = pre ++ (ns, o, Some al) :: post.
Lemma hd_rules : Forall2 handed_rule (rules_in ds1) (rules_in ds2).
Proof.
  assert (HG : forall D, D = ds1 -> forall l l', Forall2 (handed D gives_back) l l' -> Forall2 handed_rule (rules_in l) (rules_in l')).
  { intros D -> l l' HF. induction HF as [|d d' l l' Hd HF IH]; cbn; [constructor|]. destruct Hd as [d|lh pre ns o post p al c t H1 H2 H3 H4]; cbn.
    - destruct d; auto. constructor; auto. now left.
    - constructor; auto. right. exists pre, ns, o, post, al, c, t. cbn. splits; auto. }
  now apply (HG ds1).
Qed.
Lemma hd_head : option_map d_lhs (hd_error (rules_in ds2)) = option_map d_lhs (hd_error (rules_in ds1)).
Proof. destruct hd_rules as [|d d' l l' [->|(pre & ns & o & post & al & c & t & _ & _ & _ & _ & _ & _ & E1 & _)] _]; cbn; congruence. Qed.
Lemma hd_result d d' vs x : handed_rule d d' -> List.length vs = List.length (d_rhs d) -> result ds2 sm d' vs x = result ds1 sm d vs x.
Proof.
  intros [->|(pre & ns & o & post & al & c & t & HT & HE & HN & HK & EC & ER & EL & EC' & ER')] L.
  - unfold result. unfold type_of. rewrite (fr_first ds1 ds2 hd_others) by reflexivity.
    assert (EQ : map (fun e => opt_is_some (elem_type ds2 e)) (d_rhs d) = map (fun e => opt_is_some (elem_type ds1 e)) (d_rhs d)) by (apply map_ext; intros e; now rewrite (fr_elem ds1 ds2 hd_others)).
    rewrite !chosen_flags, EQ. reflexivity.
  - unfold result. rewrite EC, EC', ER, ER', HT. rewrite ER in L. rewrite app_length in L. cbn in L.
    assert (HV : exists vs1 v vs2, vs = vs1 ++ v :: vs2 /\ List.length vs1 = List.length pre).
    { exists (firstn (List.length pre) vs). destruct (skipn (List.length pre) vs) as [|v vs2] eqn:Es.
      - exfalso. pose proof (skipn_length (List.length pre) vs) as HL. rewrite Es in HL. cbn in HL. lia.
      - exists v, vs2. rewrite <- Es, firstn_skipn. split; auto. rewrite firstn_length. lia. }
    destruct HV as (vs1 & v & vs2 & -> & L1). rewrite !chosen_app, !chosen_cons by auto. cbn [is_aliased opt_is_some]. destruct (elem_type ds1 (ns, o, None)) eqn:Et; [|contradiction]. cbn [opt_is_some].
    rewrite !chosen_none; [cbn; now rewrite HK|..]; intros e He; destruct (HN e) as [E1 E2]; auto using in_or_app; now rewrite E1.
Qed.
Lemma hd_elem ds ns o al al' w x x' v : means_elem ds sm eq (ns, o, al) w x x' v -> means_elem ds sm eq (ns, o, al') w x x' v.
Proof. inversion 1; subst; econstructor; eauto. Qed.
Lemma hd_all ds d d' w x x' vs : handed_rule d d' -> means_all ds sm eq (d_rhs d) w x x' vs <-> means_all ds sm eq (d_rhs d') w x x' vs.
Proof.
  intros [->|(pre & ns & o & post & al & c & t & _ & _ & _ & _ & _ & ER & _ & _ & ER')]; [tauto|]. rewrite ER, ER', !all_app.
  split; intros (w1 & w2 & x1 & vs1 & vs2 & -> & -> & L & H1 & H2); exists w1, w2, x1, vs1, vs2; splits; auto; inversion H2; subst; econstructor; eauto using hd_elem.
Qed.
Lemma hd_lhs d d' : handed_rule d d' -> d_lhs d' = d_lhs d.
Proof. intros [->|(pre & ns & o & post & al & c & t & _ & _ & _ & _ & _ & _ & EL & _)]; auto. Qed.

(** Leaving out the block changes no answer. *)
Theorem block_left_out b1 b2 : expands ds1 b1 -> usable ds1 b1 -> expands ds2 b2 -> usable ds2 b2 -> plain ds1 -> no_fallback ds1 -> types_ok ds1 -> types_ok ds2 ->
  forall ks1 ks2, tokens_wf b1 ks1 -> tokens_wf b2 ks2 -> reading b1 sm ks1 = reading b2 sm ks2 ->
  forall x r x', (answers b1 sm x ks1 r x' -> answers_or_overflows b2 sm x ks2 r x') /\ (answers b2 sm x ks2 r x' -> answers_or_overflows b1 sm x ks1 r x').
Proof.
  intros E1 U1 E2 U2 P1 N1 T1 T2. apply (both_answer ds1 ds2); auto.
  - exact (fr_plain ds1 ds2 hd_others P1).
  - exact (fr_fall ds1 ds2 hd_others N1).
  - exact (fr_start ds1 ds2 hd_others hd_head).
  - intros s _. exact (fr_name ds1 ds2 hd_others s).
  - intros s w x x' v _. split; apply transfer; try (intros; now rewrite (fr_class ds1 ds2 hd_others)).
    + intros d w0 vs v0 y y1 y2 Hd HA HR. destruct (forall2_in_l _ _ _ hd_rules _ Hd) as (d' & Hd' & HD). rewrite <- (hd_lhs _ _ HD). apply (me_rule ds2 sm eq d' w0 vs v0 y y1 y2); auto.
      * now apply (hd_all ds2 d d').
      * rewrite (hd_result d d'); auto. eapply all_length; eauto.
    + intros d' w0 vs v0 y y1 y2 Hd HA HR. destruct (forall2_in_r _ _ _ hd_rules _ Hd) as (d & Hd' & HD). rewrite (hd_lhs _ _ HD). pose proof (proj2 (hd_all ds1 d d' w0 y y1 vs HD) HA) as HA'. apply (me_rule ds1 sm eq d w0 vs v0 y y1 y2); auto.
      rewrite <- (hd_result d d'); auto. eapply all_length; eauto.
Qed.
End Hand.

(** ** Alternatives *)
(** One rule with [A|B] in it, and one rule for each of the tokens *)
Definition rule_each (l : ident) (pre : list rhs_elem) (ns : list ident) (al : option ident) (post : list rhs_elem) (c : option nat) (p : option ident) : list decl :=
  map (fun n => DRule l (pre ++ ([n], false, al) :: post) c p) ns.

Section Alt.
Context (l1 l2 : list decl) (l : ident) (pre post : list rhs_elem) (ns : list ident) (o : bool) (al : option ident) (c : option nat) (p : option ident).
Context (LN : 2 <= List.length ns).
Notation ds1 := (l1 ++ DRule l (pre ++ (ns, o, al) :: post) c p :: l2).
Notation ds2 := (l1 ++ rule_each l pre ns al post c p ++ l2).

Lemma al_others : others ds2 = others ds1.
Proof.
  unfold others. rewrite !filter_app. cbn [filter is_rule negb]. f_equal. replace (filter (fun d => negb (is_rule d)) (rule_each l pre ns al post c p)) with (@nil decl); auto.
  unfold rule_each. clear. induction ns; cbn; auto.
Qed.
Lemma al_each n : In n ns -> In (mkDr l (pre ++ ([n], false, al) :: post) c p) (rules_in ds2).
Proof.
  intros H. rewrite !rules_app. apply in_app_iff. right. apply in_app_iff. left. unfold rule_each. clear LN. induction ns as [|m ms IH]; [destruct H|]. cbn. destruct H as [->|H]; auto.
Qed.
Lemma al_from d : In d (rules_in ds2) -> In d (rules_in l1 ++ rules_in l2) \/ exists n, In n ns /\ d = mkDr l (pre ++ ([n], false, al) :: post) c p.
Proof.
  rewrite !rules_app, !in_app_iff. intros [H|[H|H]]; auto. right. unfold rule_each in H. clear LN. induction ns as [|m ms IH]; [destruct H|]. cbn in H. destruct H as [<-|H]; [exists m; split; auto; now left|].
  destruct (IH H) as (n & Hn & E). exists n. split; auto. now right.
Qed.
Lemma al_head : option_map d_lhs (hd_error (rules_in ds2)) = option_map d_lhs (hd_error (rules_in ds1)).
Proof. rewrite !rules_app. destruct (rules_in l1); auto. destruct ns as [|m ms]; [cbn in LN; lia|reflexivity]. Qed.
Lemma al_same {V X E} (sm : sem V X E) d vs x : result ds2 sm d vs x = result ds1 sm d vs x.
Proof.
  unfold result. unfold type_of. rewrite (fr_first ds1 ds2 al_others) by reflexivity.
  assert (EQ : map (fun e => opt_is_some (elem_type ds2 e)) (d_rhs d) = map (fun e => opt_is_some (elem_type ds1 e)) (d_rhs d)) by (apply map_ext; intros e; now rewrite (fr_elem ds1 ds2 al_others)).
  rewrite !chosen_flags, EQ. reflexivity.
Qed.
Lemma raw_upper_type ds n : lower n -> raw_type ds n = type_of ds n.
Proof. intros L. unfold raw_type. destruct (extra_token_of ds), (class_of ds n); auto. assert (HU : is_terminal_ident n = false) by (destruct (is_terminal_ident n) eqn:E; auto; exfalso; exact (upper_lower n E L)). now rewrite HU. Qed.
(** If the rules are accepted without a block, the tokens carry no data. *)
Lemma al_untyped b1 b2 n t : expands ds1 b1 -> expands ds2 b2 -> c = None -> type_of ds1 l = Some t -> In n ns -> elem_type ds1 ([n], false, al) = None.
Proof.
  intros E1 E2 EC ET Hn.
  assert (HL : lower l) by (apply (ex_low ds1 b1 E1 (mkDr l (pre ++ (ns, o, al) :: post) c p)); rewrite rules_app; apply in_app_iff; right; now left).
  assert (RT : raw_type ds1 l <> None) by (rewrite raw_upper_type; auto; congruence).
  assert (H1 : List.length (filter (elem_typed ds1) (pre ++ (ns, o, al) :: post)) = 1).
  { destruct (Nat.eq_dec (List.length (filter (elem_typed ds1) (pre ++ (ns, o, al) :: post))) 1) as [H|H]; auto. exfalso. apply (expanded_faultless ds1 b1 E1 ETypedNoCode); [intros [?|?]; discriminate|].
    exists (mkDr l (pre ++ (ns, o, al) :: post) c p). cbn [d_code d_lhs]. splits; auto; [rewrite rules_app; apply in_app_iff; right; now left|]. intros [_ H']. exact (H H'). }
  assert (H2 : List.length (filter (elem_typed ds2) (pre ++ ([n], false, al) :: post)) = 1).
  { destruct (Nat.eq_dec (List.length (filter (elem_typed ds2) (pre ++ ([n], false, al) :: post))) 1) as [H|H]; auto. exfalso. apply (expanded_faultless ds2 b2 E2 ETypedNoCode); [intros [?|?]; discriminate|].
    exists (mkDr l (pre ++ ([n], false, al) :: post) c p). cbn [d_code d_lhs]. splits; auto; [now apply al_each|rewrite (fr_raw ds1 ds2 al_others); auto|]. intros [_ H']. exact (H H'). }
  assert (ES : forall e, elem_typed ds2 e = elem_typed ds1 e) by (intros [[[|m [|m' ms]] [|]] a]; cbn; auto; now rewrite (fr_raw ds1 ds2 al_others)).
  rewrite (filter_ext _ _ ES) in H2. rewrite filter_app, app_length in H1, H2. cbn [filter] in H1, H2.
  assert (EN : elem_typed ds1 (ns, o, al) = false) by (destruct ns as [|m [|m' ms]]; cbn in LN; try lia; reflexivity). rewrite EN in H1.
  cbn [elem_typed elem_type] in *. destruct (raw_type ds1 n); auto. cbn [opt_is_some] in H2. cbn [List.length] in H2. lia.
Qed.

(** The rule with alternatives and the rules for each of them give the same answers. *)
Theorem alternatives_written_out b1 b2 {V X E} (sm : sem V X E) : expands ds1 b1 -> usable ds1 b1 -> expands ds2 b2 -> usable ds2 b2 -> plain ds1 -> no_fallback ds1 -> types_ok ds1 -> types_ok ds2 ->
  forall ks1 ks2, tokens_wf b1 ks1 -> tokens_wf b2 ks2 -> reading b1 sm ks1 = reading b2 sm ks2 ->
  forall x r x', (answers b1 sm x ks1 r x' -> answers_or_overflows b2 sm x ks2 r x') /\ (answers b2 sm x ks2 r x' -> answers_or_overflows b1 sm x ks1 r x').
Proof.
  intros E1 U1 E2 U2 P1 N1 T1 T2.
  assert (IR : In (mkDr l (pre ++ (ns, o, al) :: post) c p) (rules_in ds1)) by (rewrite rules_app; apply in_app_iff; right; now left).
  assert (HU : forall n, In n ns -> is_terminal_ident n = true).
  { intros n Hn. destruct (is_terminal_ident n) eqn:En; auto. exfalso. apply (expanded_faultless ds1 b1 E1 ECompound); [intros [?|?]; discriminate|]. exists ns, o, al, n. splits; auto.
    exists (mkDr l (pre ++ (ns, o, al) :: post) c p). split; auto. cbn. apply in_app_iff. right. now left. }
  assert (HCl : forall n, In n ns -> class_of ds1 n = None).
  { intros n Hn. destruct (us_flat _ _ U1) as [_ F2]. apply (F2 (mkDr l (pre ++ (ns, o, al) :: post) c p) ns o al); auto. cbn. apply in_app_iff. right. now left. }
  assert (RES : forall n vs x, In n ns -> List.length vs = List.length (pre ++ (ns, o, al) :: post) -> result ds1 sm (mkDr l (pre ++ ([n], false, al) :: post) c p) vs x = result ds1 sm (mkDr l (pre ++ (ns, o, al) :: post) c p) vs x).
  { intros n vs x Hn L. unfold result. cbn [d_code d_lhs d_rhs].
    assert (EA : map is_aliased (pre ++ ([n], false, al) :: post) = map is_aliased (pre ++ (ns, o, al) :: post)) by (rewrite !map_app; reflexivity).
    assert (EE : c = None -> forall t, type_of ds1 l = Some t -> elem_type ds1 ([n], false, al) = elem_type ds1 (ns, o, al)).
    { intros EC t ET. rewrite (al_untyped b1 b2 n t); auto. destruct ns as [|m [|m' ms]]; cbn in LN; try lia; reflexivity. }
    rewrite !chosen_flags, EA. revert EE. generalize ds1 as D. intros D EE. destruct c as [cc|]; auto. destruct (type_of D l) as [t|] eqn:ET; auto.
    rewrite !map_app. cbn [map]. now rewrite (EE eq_refl t eq_refl). }
  apply (both_answer ds1 ds2); auto.
  - exact (fr_plain ds1 ds2 al_others P1).
  - exact (fr_fall ds1 ds2 al_others N1).
  - exact (fr_start ds1 ds2 al_others al_head).
  - intros s _. exact (fr_name ds1 ds2 al_others s).
  - intros s w x x' v _. split; apply transfer; try (intros; now rewrite (fr_class ds1 ds2 al_others)).
    + intros d w0 vs v0 y y1 y2 Hd HA HR. rewrite rules_app in Hd. cbn [rules_in] in Hd. apply in_app_iff in Hd.
      assert (HO : In d (rules_in l1 ++ rules_in l2) \/ d = mkDr l (pre ++ (ns, o, al) :: post) c p) by (rewrite in_app_iff; destruct Hd as [Hd|[Hd|Hd]]; auto). clear Hd. destruct HO as [Hd|Hd].
      * apply (me_rule ds2 sm eq d w0 vs v0 y y1 y2); auto; [rewrite !rules_app, !in_app_iff; apply in_app_iff in Hd; tauto|]. now rewrite al_same.
      * subst d. cbn [d_rhs d_lhs] in *. pose proof (all_length _ _ _ _ _ _ _ HA) as LV. apply all_app in HA as (w1 & w2 & x1 & vs1 & vs2 & -> & EV & L & H1 & H2). inversion H2 as [|e es u1 u2 z z1 z2 v1 us He Hes]; subst.
        assert (HN : exists a, In a ns /\ u1 = [(a, v1)] /\ z1 = x1) by (inversion He; subst; cbn in LN; try lia; eauto). destruct HN as (a & Ha & -> & ->).
        apply (me_rule ds2 sm eq (mkDr l (pre ++ ([a], false, al) :: post) c p) (w1 ++ [(a, v1)] ++ u2) (vs1 ++ v1 :: us) v0 y y1 y2); [now apply al_each| |].
        -- cbn [d_rhs]. apply all_app. exists w1, ([(a, v1)] ++ u2), x1, vs1, (v1 :: us). splits; auto. econstructor; [|exact Hes]. constructor. apply me_tok with (b := a); auto. split; auto. now rewrite (fr_class ds1 ds2 al_others), HCl.
        -- rewrite al_same, RES; auto.
    + intros d w0 vs v0 y y1 y2 Hd HA HR. destruct (al_from d Hd) as [Hd'|(n & Hn & ->)].
      * apply (me_rule ds1 sm eq d w0 vs v0 y y1 y2); auto; [rewrite !rules_app, !in_app_iff; apply in_app_iff in Hd'; cbn; tauto|]. now rewrite <- al_same.
      * cbn [d_rhs d_lhs] in *. pose proof (all_length _ _ _ _ _ _ _ HA) as LV. apply all_app in HA as (w1 & w2 & x1 & vs1 & vs2 & -> & -> & L & H1 & H2). inversion H2 as [|e es u1 u2 z z1 z2 v1 us He Hes]; subst.
        assert (HN : u1 = [(n, v1)] /\ z1 = x1).
        { inversion He as [m a' u z z' v2 Hm| | |]; subst; [|cbn in *; lia]. inversion Hm as [a v3 b n0 x0 Hab [_ Hst]|d w0 vs v2' z0 z0' z2' Hd0]; subst.
          - rewrite HCl in Hst by auto. subst. auto.
          - exfalso. apply (ex_low _ _ E1) in Hd0. exact (upper_lower _ (HU _ Hn) Hd0). }
        destruct HN as [-> ->]. apply (me_rule ds1 sm eq (mkDr l (pre ++ (ns, o, al) :: post) c p) (w1 ++ [(n, v1)] ++ u2) (vs1 ++ v1 :: us) v0 y y1 y2); auto.
        -- cbn [d_rhs]. apply all_app. exists w1, ([(n, v1)] ++ u2), x1, vs1, (v1 :: us). splits; auto. econstructor; [|exact Hes]. eapply me_alt; eauto.
        -- rewrite <- (RES n); auto; [now rewrite <- al_same|]. rewrite LV, !app_length. reflexivity.
Qed.
End Alt.

(** ** Optional elements *)
(** [q?] and a nonterminal [o] for it *)
Inductive unwrapped (q o : ident) : rhs_elem -> rhs_elem -> Prop :=
| uw_same e : unwrapped q o e e
| uw_opt al : unwrapped q o ([q], true, al) ([o], false, al).
Inductive unwrapped_decl (q o : ident) : decl -> decl -> Prop :=
| ud_same d : unwrapped_decl q o d d
| ud_rule l r r' c p : Forall2 (unwrapped q o) r r' -> unwrapped_decl q o (DRule l r c p) (DRule l r' c p).
(** The lines for the new nonterminal: its type, [o ::= q(al) { Some(al) }] and [o ::= { None }] *)
Definition opt_lines (t : ty) (q o al : ident) (cs cn : nat) : list decl :=
  [DType 0 o (Some (TyOption t)); DRule o [([q], false, Some al)] (Some cs) None; DRule o [] (Some cn) None].

Section Opt.
Context (ds1 ds' : list decl) (q o al : ident) (cs cn : nat) {V X E : Type} (sm : sem V X E).
Context (UW : Forall2 (unwrapped_decl q o) ds1 ds') (NM : ~ mentions ds1 o) (LO : lower o) (QO : q <> o).
Context (HS : forall v x, u_block sm cs [v] x = (x, inl (v_some sm v))) (HN : forall x, u_block sm cn [] x = (x, inl (v_none sm))).
Notation ds2 := (ds' ++ opt_lines (or_unit (raw_type ds1 q)) q o al cs cn).

Lemma ow_others : others ds2 = others ds1 ++ [DType 0 o (Some (TyOption (or_unit (raw_type ds1 q))))].
Proof.
  unfold others. rewrite filter_app. f_equal. clear -UW. induction UW as [|d d' l l' Hd HF IH]; auto. destruct Hd as [d|]; cbn [filter is_rule negb]; rewrite IH; auto.
Qed.
Lemma first_snoc {B} (f : decl -> option B) d : f d = None -> forall l, DeclSpec.first_of f (l ++ [d]) = DeclSpec.first_of f l.
Proof. intros Hf. induction l as [|x l IH]; cbn; [now rewrite Hf|]. now rewrite IH. Qed.
Lemma ow_first {B} (f : decl -> option B) : (forall l r c p, f (DRule l r c p) = None) -> (forall k n t, f (DType k n t) = None) -> DeclSpec.first_of f ds2 = DeclSpec.first_of f ds1.
Proof. intros Hf Ht. rewrite (first_others f Hf ds2), (first_others f Hf ds1), ow_others. now apply first_snoc. Qed.
Lemma class_snoc n d : class_line n d = None -> forall l, class_of (l ++ [d]) n = class_of l n.
Proof. intros Hf. induction l as [|x l IH]; cbn [app class_of]; [now rewrite Hf|]. now rewrite IH. Qed.
Lemma ow_class n : class_of ds2 n = class_of ds1 n.
Proof. rewrite (class_others n ds2), (class_others n ds1), ow_others. now apply class_snoc. Qed.
Lemma ow_type n : n <> o -> type_of ds2 n = type_of ds1 n.
Proof.
  intros Hn. unfold type_of. rewrite (first_others _ (fun l r c p => eq_refl) ds2), (first_others _ (fun l r c p => eq_refl) ds1), ow_others. apply first_snoc. destruct (String.eqb_spec n o); auto. contradiction.
Qed.
Lemma ow_new : raw_type ds2 o <> None.
Proof.
  rewrite (raw_upper_type ds2 o LO). unfold type_of. rewrite (first_others _ (fun l r c p => eq_refl) ds2), ow_others. generalize (others ds1) as k. induction k as [|d k IH]; [cbn; rewrite String.eqb_refl; discriminate|].
  cbn [app DeclSpec.first_of]. destruct (match d with DType _ m (Some t) => if String.eqb o m then Some t else None | _ => None end); auto. discriminate.
Qed.
Lemma ow_raw n : n <> o -> raw_type ds2 n = raw_type ds1 n.
Proof.
  intros Hn. assert (HG : forall D, type_of D n = type_of ds1 n -> class_of D n = class_of ds1 n -> extra_token_of D = extra_token_of ds1 -> raw_type D n = raw_type ds1 n) by (intros D D1 D2 D3; unfold raw_type; now rewrite D1, D2, D3).
  apply HG; [now apply ow_type|apply ow_class|now apply ow_first].
Qed.
Lemma ow_assoc n : assoc_of ds2 n = assoc_of ds1 n.
Proof.
  assert (HG : forall t k j, assoc_from j (k ++ [DType 0 o t]) n = assoc_from j k n) by (intros t; induction k as [|d k IH]; intros j; auto; cbn [app assoc_from]; destruct d; rewrite ?IH; auto).
  unfold assoc_of. rewrite (assoc_others n ds2), (assoc_others n ds1), ow_others. apply HG.
Qed.
Definition unwrapped_rule (d d' : drule) : Prop := d_lhs d' = d_lhs d /\ d_code d' = d_code d /\ Forall2 (unwrapped q o) (d_rhs d) (d_rhs d').
Lemma ow_rules : Forall2 unwrapped_rule (rules_in ds1) (rules_in ds').
Proof.
  clear -UW. induction UW as [|d d' l l' Hd HF IH]; cbn; [constructor|]. destruct Hd as [d|lh r r' c p HE]; cbn.
  - destruct d; auto. constructor; auto. unfold unwrapped_rule. cbn. splits; auto. clear. induction rhs; constructor; auto. constructor.
  - constructor; auto. unfold unwrapped_rule. cbn. auto.
Qed.
Lemma ow_in2 d : In d (rules_in ds2) -> In d (rules_in ds') \/ d = mkDr o [([q], false, Some al)] (Some cs) None \/ d = mkDr o [] (Some cn) None.
Proof. rewrite rules_app, in_app_iff. cbn. intros [H|[H|[H|[]]]]; auto. Qed.
Lemma ow_mention d : In d (rules_in ds1) -> d_lhs d <> o /\ forall e, In e (d_rhs d) -> ~ In o (fst (fst e)).
Proof.
  intros Hd. destruct (Claims23.rule_mentions ds1 d Hd) as [H1 H2]. split; [intros E0; apply NM; now rewrite <- E0|]. intros e He Ho. apply NM. eauto.
Qed.
Lemma ow_typed e e' : unwrapped q o e e' -> ~ In o (fst (fst e)) -> opt_is_some (elem_type ds2 e') = opt_is_some (elem_type ds1 e).
Proof.
  intros [e0|a] Ho.
  - destruct e0 as [[[|n [|m ms]] b] a]; cbn [elem_type]; auto. cbn in Ho. rewrite ow_raw by tauto. reflexivity.
  - cbn [elem_type opt_is_some]. destruct (raw_type ds2 o) eqn:E0; auto. now apply ow_new in E0.
Qed.
Lemma ow_result d d' vs x : In d (rules_in ds1) -> unwrapped_rule d d' -> result ds2 sm d' vs x = result ds1 sm d vs x.
Proof.
  intros Hd (E1 & E2 & HF). destruct (ow_mention d Hd) as [M1 M2]. unfold result. rewrite E1, E2, (ow_type _ M1).
  assert (EA : map is_aliased (d_rhs d') = map is_aliased (d_rhs d)) by (clear -HF; induction HF as [|e e' l l' He HF IH]; cbn; auto; rewrite IH; f_equal; destruct He; auto).
  assert (ET : map (fun e => opt_is_some (elem_type ds2 e)) (d_rhs d') = map (fun e => opt_is_some (elem_type ds1 e)) (d_rhs d)).
  { clear E1 E2 EA M1 Hd. induction HF as [|e e' l l' He HF IH]; cbn [map]; auto. rewrite IH by (intros e0 H0; apply M2; now right). f_equal. apply ow_typed; auto. apply M2. now left. }
  rewrite !chosen_flags, EA, ET. reflexivity.
Qed.
Lemma ow_some w x x' v : means ds2 sm eq q w x x' v -> means ds2 sm eq o w x x' (v_some sm v).
Proof.
  intros H. apply (me_rule ds2 sm eq (mkDr o [([q], false, Some al)] (Some cs) None) w [v] (v_some sm v) x x' x').
  - rewrite rules_app. apply in_app_iff. right. now left.
  - cbn [d_rhs]. rewrite <- (app_nil_r w). econstructor; [constructor; exact H|constructor].
  - unfold result. cbn. now rewrite HS.
Qed.
Lemma ow_none x : means ds2 sm eq o [] x x (v_none sm).
Proof.
  apply (me_rule ds2 sm eq (mkDr o [] (Some cn) None) [] [] (v_none sm) x x x).
  - rewrite rules_app. apply in_app_iff. right. right. now left.
  - constructor.
  - unfold result. cbn. now rewrite HN.
Qed.
Lemma ow_elem e e' w x x' v : unwrapped q o e e' -> means_elem ds2 sm eq e w x x' v -> means_elem ds2 sm eq e' w x x' v.
Proof. intros [e0|a] H; auto. constructor. inversion H; subst; [apply ow_none|now apply ow_some|cbn in *; lia]. Qed.
Lemma ow_all es es' : Forall2 (unwrapped q o) es es' -> forall w x x' vs, means_all ds2 sm eq es w x x' vs -> means_all ds2 sm eq es' w x x' vs.
Proof. induction 1 as [|e e' l l' He HF IH]; intros w x x' vs H; auto. inversion H; subst. econstructor; eauto using ow_elem. Qed.

Lemma ow_forth n w x x' v : means ds1 sm eq n w x x' v -> means ds2 sm eq n w x x' v.
Proof.
  revert n w x x' v. apply transfer; [intros; apply ow_class|]. intros d w vs v x x1 x2 Hd HA HR. destruct (forall2_in_l _ _ _ ow_rules _ Hd) as (d' & Hd' & SD). pose proof SD as (E1 & _ & HF). rewrite <- E1.
  apply (me_rule ds2 sm eq d' w vs v x x1 x2); [rewrite rules_app; apply in_app_iff; now left|now apply (ow_all (d_rhs d))|]. now rewrite (ow_result d d').
Qed.
(** What the new nonterminal means in the old declarations *)
Definition opt_value (w : list (ident * V)) (x x' : X) (v : V) : Prop := means_elem ds1 sm eq ([q], true, None) w x x' v.
Lemma ow_back : forall n w x x' v, means ds2 sm eq n w x x' v -> (n <> o -> means ds1 sm eq n w x x' v) /\ (n = o -> opt_value w x x' v).
Proof.
  apply (means_mind ds2 V X E sm eq (fun n w x x' v => (n <> o -> means ds1 sm eq n w x x' v) /\ (n = o -> opt_value w x x' v))
    (fun e' w x x' v => forall e, unwrapped q o e e' -> ~ In o (fst (fst e)) -> means_elem ds1 sm eq e w x x' v)
    (fun es' w x x' vs => (forall es, Forall2 (unwrapped q o) es es' -> (forall e, In e es -> ~ In o (fst (fst e))) -> means_all ds1 sm eq es w x x' vs) /\
       (forall a, es' = [([q], false, a)] -> exists v, vs = [v] /\ means ds1 sm eq q w x x' v) /\ (es' = [] -> w = [] /\ x' = x /\ vs = []))).
  - intros a v c n x <- [U Hst]. rewrite ow_class in Hst. split.
    + intros _. apply me_tok with (b := a); auto. split; auto.
    + intros ->. exfalso. exact (upper_lower o U LO).
  - intros d' w vs v x x1 x2 Hd' _ (IH1 & IH2 & IH3) HR. destruct (ow_in2 d' Hd') as [Hd|[-> | ->]].
    + destruct (forall2_in_r _ _ _ ow_rules _ Hd) as (d & Hd1 & SD). pose proof SD as (E1 & _ & HF). destruct (ow_mention d Hd1) as [M1 M2]. rewrite E1. split; [|contradiction].
      intros _. apply (me_rule ds1 sm eq d w vs v x x1 x2); auto. now rewrite <- (ow_result d d').
    + cbn [d_lhs d_rhs] in *. split; [contradiction|]. intros _. destruct (IH2 _ eq_refl) as (u & -> & Hu). unfold result in HR. cbn in HR. rewrite HS in HR. injection HR as <- <-. constructor. exact Hu.
    + cbn [d_lhs d_rhs] in *. split; [contradiction|]. intros _. destruct (IH3 eq_refl) as (-> & -> & ->). unfold result in HR. cbn in HR. rewrite HN in HR. injection HR as <- <-. constructor.
  - intros n a w x x' v _ [IH1 IH2] e He Ho. inversion He as [e0 E0|b E0]; subst.
    + constructor. apply IH1. intros ->. apply Ho. now left.
    + specialize (IH2 eq_refl). inversion IH2; subst; [constructor|now constructor|cbn in *; lia].
  - intros n a x e He Ho. inversion He; subst. constructor.
  - intros n a w x x' v _ [IH1 _] e He Ho. inversion He; subst. constructor. apply IH1. intros ->. apply Ho. now left.
  - intros ns b a t v c x L <- Hin e He Ho. inversion He; subst; [now apply me_alt with (b := t)|cbn in L; lia].
  - intros x. splits; [intros es HF _; inversion HF; subst; constructor|discriminate|auto].
  - intros e es w1 w2 x x1 x2 v vs _ IH1 _ (IH2 & _ & IH3). splits; [|intros a Ea; injection Ea as -> ->|discriminate].
    + intros es0 HF Hm. inversion HF as [|e1 e2 l1 l2 He HF' E1 E2]; subst. econstructor; [apply IH1; auto; apply Hm; now left|]. apply IH2; auto. intros e3 H3. apply Hm. now right.
    + exists v. destruct (IH3 eq_refl) as (-> & -> & ->). split; auto. rewrite app_nil_r. assert (HE : means_elem ds1 sm eq ([q], false, a) w1 x x1 v) by (apply IH1; [constructor|cbn; intros [->|[]]; contradiction]).
      inversion HE; subst; auto. cbn in *. lia.
Qed.

(** [q?] and the nonterminal written out for it give the same answers. *)
Theorem optional_written_out b1 b2 : expands ds1 b1 -> usable ds1 b1 -> expands ds2 b2 -> usable ds2 b2 -> plain ds1 -> no_fallback ds1 -> types_ok ds1 -> types_ok ds2 ->
  forall ks1 ks2, tokens_wf b1 ks1 -> tokens_wf b2 ks2 -> reading b1 sm ks1 = reading b2 sm ks2 ->
  forall x r x', (answers b1 sm x ks1 r x' -> answers_or_overflows b2 sm x ks2 r x') /\ (answers b2 sm x ks2 r x' -> answers_or_overflows b1 sm x ks1 r x').
Proof.
  intros E1 U1 E2 U2 [P1 P2] N1 T1 T2. destruct (ex_decl ds1 b1 E1) as (opts & DE). destruct (de_start _ _ _ DE) as (s0 & Es & As & Low).
  assert (S0 : start_of ds2 = start_of ds1).
  { unfold start_of, start_line in *. rewrite ow_first by reflexivity. destruct (DeclSpec.first_of _ ds1); auto. rewrite rules_app. destruct ow_rules as [|d d' k k' (EL & _) _]; [discriminate|]. cbn. congruence. }
  assert (NO : s0 <> o).
  { intros ->. apply NM. unfold start_of in Es. destruct (start_line ds1) as [n|] eqn:El.
    - injection Es as ->. unfold start_line in El. clear -El. induction ds1 as [|d l IH]; [discriminate|]. cbn in El. destruct d; try (destruct (IH El) as (d' & H1 & H2); exists d'; split; auto; now right). injection El as <-. exists (DStartSymbol id). split; now left.
    - destruct (rules_in ds1) as [|d l] eqn:Er; [discriminate|]. injection Es as <-. apply (Claims23.rule_mentions ds1). rewrite Er. now left. }
  apply (both_answer ds1 ds2); auto.
  - split; auto.
  - split; [intros n; rewrite ow_assoc; apply P1|]. unfold wildcard_of. now rewrite ow_first by reflexivity.
  - intros a. unfold fallback_of. rewrite ow_first by reflexivity. apply N1.
  - intros s Hs. assert (s = s0) by congruence. subst s. unfold name_type, own_of, is_wild, wildcard_of, default_type_of. rewrite !ow_first by reflexivity. rewrite ow_class, (ow_raw s0 NO).
    destruct (sym_decl _ _ _ DE _ _ As ltac:(intros ->; discriminate)) as (_ & _ & EC). rewrite (kind_at_gsym _ _ _ (lower_kind ds1 _ opts DE _ _ As Low)) in EC. cbn in EC. now rewrite <- EC.
  - intros s w x x' v Hs. assert (s = s0) by congruence. subst s. split; [apply ow_forth|]. intros H. now apply (ow_back _ _ _ _ _ H).
Qed.
End Opt.

(** ** The documentation calls the rule with alternatives a shortcut of the other rules, but it is
    not accepted whenever they are: s ::= A|B C;  s ::= A D;  has a conflict, as the tokens [A] and
    [A|B] are different symbols, and the three rules without [|] have none. *)
Definition one_bar : list decl := [] ++ DRule "s" ([] ++ (["A"; "B"], false, None) :: [(["C"], false, None)]) (Some 1) None :: [DRule "s" [(["A"], false, None); (["D"], false, None)] (Some 2) None].
Definition no_bar : list decl := [] ++ rule_each "s" [] ["A"; "B"] None [(["C"], false, None)] (Some 1) None ++ [DRule "s" [(["A"], false, None); (["D"], false, None)] (Some 2) None].
Definition identity_order (l : list (nat * nat)) : list (nat * nat) := l.
Definition is_ok {A} (r : gres A) : bool := match r with GOk _ => true | _ => false end.
Lemma is_ok_some {A} (r : gres A) : is_ok r = true -> exists a, r = GOk a.
Proof. destruct r; try discriminate. eauto. Qed.
Theorem alternatives_shortcut_refuted : build 300 identity_order one_bar = GErr EConflicts /\ (forall b, ~ expands one_bar b) /\ exists b, expands no_bar b.
Proof.
  assert (HO : hash_order identity_order) by (intros l; apply Permutation_refl).
  assert (HB : build 300 identity_order one_bar = GErr EConflicts) by (vm_compute; reflexivity).
  assert (HC : is_ok (build 300 identity_order no_bar) = true) by (vm_compute; reflexivity).
  split; [exact HB|split].
  - intros b EX. apply (expanded_faultless one_bar b EX EConflicts); [intros [H|H]; discriminate H|]. apply (FaultBack.rejected_for_a_reason 300 identity_order one_bar EConflicts HO); [intros [H|H]; discriminate H|exact HB].
  - apply is_ok_some in HC as [b Hb]. exists b, 300, identity_order. split; [exact HO|exact Hb].
Qed.
