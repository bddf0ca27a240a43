(** Deciders for the conditions of the theorems, used on the concrete grammars. *)
From Verif Require Import Base Syntax BaseFacts FrontEnd First States Actions Tables Runtime User Spec PackFacts TabFacts PipeFacts BuildFacts DeclSpec LangFacts TypeDecl Main TreeSpec PrecSpec.
Open Scope string_scope. Open Scope nat_scope. Open Scope list_scope.

Definition opt_nat_eqb (a b : option nat) : bool := match a, b with Some x, Some y => x =? y | None, None => true | _, _ => false end.
Definition same_set_b (s1 s2 : list (nat * nat)) : bool := forallb (fun la => opt_nat_eqb (last_assoc s1 la) (last_assoc s2 la)) (map fst s1 ++ map fst s2).
Lemma opt_nat_eqb_eq a b : opt_nat_eqb a b = true -> a = b.
Proof. destruct a, b; cbn; try discriminate; auto. intros H. apply Nat.eqb_eq in H. now subst. Qed.
Lemma same_set_b_ok s1 s2 : same_set_b s1 s2 = true -> same_set s1 s2.
Proof.
  intros H la. unfold same_set_b in H. rewrite forallb_forall in H. destruct (in_dec Nat.eq_dec la (map fst s1 ++ map fst s2)) as [Hin|Hn]; [now apply opt_nat_eqb_eq, H|].
  assert (N : forall s, ~ In la (map fst s) -> last_assoc s la = None). { intros s Hs. apply last_assoc_none. intros a Ha. apply Hs, in_map_iff. now exists (la, a). }
  rewrite !N; auto; intros Hin; apply Hn, in_or_app; auto.
Qed.
Definition rows_apart_b (b : built) : bool :=
  let g := bt_grammar b in let p := bt_comp b in
  match pack_states g p with
  | GOk k =>
      forallb (fun w =>
        let rows := flat_map (fun s => match ofs_of k s w with None => [] | Some o => [(o, aset g p s w)] end) (seq 0 (List.length (p_states p))) in
        forallb (fun r1 => forallb (fun r2 => if Z.eqb (fst r1) (fst r2) then same_set_b (snd r1) (snd r2) else true) rows) rows) [true; false]
  | _ => true
  end.
Lemma rows_apart_b_ok b : rows_apart_b b = true -> rows_apart b.
Proof.
  intros H k Hk. unfold rows_apart_b in H. rewrite Hk in H. rewrite forallb_forall in H. intros w s1 s2 o L1 L2 O1 O2.
  assert (Hw : In w [true; false]) by (destruct w; cbn; auto). specialize (H w Hw). cbv zeta in H. rewrite forallb_forall in H.
  assert (R : forall s, s < List.length (p_states (bt_comp b)) -> ofs_of k s w = Some o -> In (o, aset (bt_grammar b) (bt_comp b) s w) (flat_map (fun s => match ofs_of k s w with None => [] | Some o => [(o, aset (bt_grammar b) (bt_comp b) s w)] end) (seq 0 (List.length (p_states (bt_comp b)))))).
  { intros s L O. apply in_flat_map. exists s. split; [apply in_seq; lia|]. rewrite O. left. reflexivity. }
  specialize (H _ (R s1 L1 O1)). rewrite forallb_forall in H. specialize (H _ (R s2 L2 O2)). cbn [fst snd] in H. rewrite Z.eqb_refl in H. now apply same_set_b_ok.
Qed.

(** ** Conditions on declarations *)
Definition class_names (ds : list decl) : list ident := flat_map (fun d => match d with DTokenClass m _ => [m] | _ => [] end) ds.
Lemma class_named ds n ms : class_of ds n = Some ms -> In n (class_names ds).
Proof.
  revert ms. induction ds as [|d ds IH]; cbn [class_of class_names flat_map]; [discriminate|]. intros ms H. apply in_or_app. destruct (class_line n d) as [l|] eqn:E; [left|right; eauto].
  destruct d; cbn in E |- *; try discriminate. destruct (String.eqb_spec n tk); [left; auto|discriminate].
Qed.
Definition no_class (ds : list decl) (m : ident) : bool := match class_of ds m with None => true | _ => false end.
Lemma no_class_ok ds m : no_class ds m = true -> class_of ds m = None.
Proof. unfold no_class. destruct (class_of ds m); auto. discriminate. Qed.
Definition flat_b (ds : list decl) : bool :=
  forallb (fun n => match class_of ds n with Some ms => forallb (no_class ds) ms | None => true end) (class_names ds) &&
  forallb (fun d => forallb (fun e => (List.length (fst (fst e)) <? 2) || forallb (no_class ds) (fst (fst e))) (d_rhs d)) (rules_in ds).
Lemma flat_b_ok ds : flat_b ds = true -> flat_decls ds.
Proof.
  unfold flat_b. intros H. apply andb_true_iff in H as [H1 H2]. rewrite forallb_forall in H1, H2. split.
  - intros n ms m Hc Hm. pose proof (H1 _ (class_named _ _ _ Hc)) as H. rewrite Hc, forallb_forall in H. now apply no_class_ok, H.
  - intros d ns o al Hd He L m Hm. pose proof (H2 _ Hd) as H. rewrite forallb_forall in H. specialize (H _ He). cbn in H. apply orb_true_iff in H as [H|H]; [apply Nat.leb_le in H; lia|].
    rewrite forallb_forall in H. now apply no_class_ok, H.
Qed.
Definition no_self_b (ds : list decl) : bool := forallb (fun d => match d with DFallback fb ids => negb (listed fb ids) | _ => true end) ds.
Lemma listed_true n l : listed n l = true <-> In n l.
Proof. unfold listed. rewrite existsb_exists. split; [intros (x & H & E); apply String.eqb_eq in E; now subst|]. intros H. exists n. split; auto. apply String.eqb_refl. Qed.
Lemma no_self_b_ok ds : no_self_b ds = true -> no_self_fallback ds.
Proof. unfold no_self_b. intros H fb ids Hd Hin. rewrite forallb_forall in H. apply H in Hd. apply negb_true_iff in Hd. apply listed_true in Hin. congruence. Qed.

Lemma first_of_in {A B} (f : A -> option B) l b : first_of f l = Some b -> exists a, In a l /\ f a = Some b.
Proof. induction l as [|a l IH]; cbn; [discriminate|]. destruct (f a) eqn:E; [intros H; injection H as ->; eauto|]. intros H. destruct (IH H) as (a' & ? & ?). eauto. Qed.
Lemma first_of_none {A B} (f : A -> option B) l : (forall a, In a l -> f a = None) -> first_of f l = None.
Proof. intros H. destruct (first_of f l) eqn:E; auto. apply first_of_in in E as (a & Ha & Ea). rewrite (H a Ha) in Ea. discriminate. Qed.

Definition plain_b (ds : list decl) : bool := forallb (fun d => match d with DAssoc _ _ | DWildcard _ => false | _ => true end) ds.
Lemma plain_b_ok ds : plain_b ds = true -> plain ds.
Proof.
  unfold plain_b. intros H. rewrite forallb_forall in H. split.
  - intros n. unfold assoc_of. generalize 0. induction ds as [|d ds IH]; intros k; cbn; auto. pose proof (H d (or_introl eq_refl)) as Hd. destruct d; try discriminate; apply IH; intros; apply H; now right.
  - unfold wildcard_of. apply first_of_none. intros d Hd. apply H in Hd. destruct d; auto. discriminate.
Qed.
Definition no_fallback_b (ds : list decl) : bool := forallb (fun d => match d with DFallback _ _ => false | _ => true end) ds.
Lemma no_fallback_b_ok ds : no_fallback_b ds = true -> forall a, fallback_of ds a = None.
Proof. unfold no_fallback_b. intros H a. rewrite forallb_forall in H. unfold fallback_of. apply first_of_none. intros d Hd. apply H in Hd. destruct d; auto. discriminate. Qed.

Definition untyped (ds : list decl) (n : ident) : bool := match name_type ds n with None => true | _ => false end.
Definition not_wild (ds : list decl) (n : ident) : bool := match wildcard_of ds with Some w => negb (String.eqb w n) | None => true end.
Definition not_unit (o : option ty) : bool := match o with Some TyUnit => false | _ => true end.
Definition types_b (ds : list decl) : bool :=
  forallb (fun d => match d with DFallback _ ids => forallb (fun a => match fallback_of ds a with Some c => negb (untyped ds c) || untyped ds a | None => true end) ids | _ => true end) ds &&
  forallb (fun n => match class_of ds n with Some ms => forallb (not_wild ds) ms | None => true end) (class_names ds) &&
  forallb (fun d => forallb (fun e => (List.length (fst (fst e)) <? 2) || forallb (not_wild ds) (fst (fst e))) (d_rhs d)) (rules_in ds) &&
  (match start_of ds with Some s => negb (untyped ds s) | None => true end ||
   forallb (fun d => match d with DDefaultType t | DExtraToken t | DType _ _ (Some t) => not_unit (Some t) | _ => true end) ds).
Lemma types_b_ok ds : types_b ds = true -> types_ok ds.
Proof.
  unfold types_b. intros H. apply andb_true_iff in H as [H H4]. apply andb_true_iff in H as [H H3]. apply andb_true_iff in H as [H1 H2]. rewrite forallb_forall in H1, H2, H3. constructor.
  - intros a c Hf Hc. pose proof Hf as Hf'. unfold fallback_of in Hf. apply first_of_in in Hf as (d & Hd & Ed). apply H1 in Hd. destruct d; try discriminate. destruct (listed a ids) eqn:El; [|discriminate].
    apply listed_true in El. rewrite forallb_forall in Hd. apply Hd in El. rewrite Hf' in El. unfold untyped in El. rewrite Hc in El. cbn in El. destruct (name_type ds a); auto. discriminate.
  - intros w n ms Hw Hc Hin. pose proof (H2 _ (class_named _ _ _ Hc)) as H. rewrite Hc, forallb_forall in H. apply H in Hin. unfold not_wild in Hin. rewrite Hw, String.eqb_refl in Hin. discriminate.
  - intros w d ns o al Hw Hd He L Hin. pose proof (H3 _ Hd) as H. rewrite forallb_forall in H. apply H in He. cbn in He. apply orb_true_iff in He as [He|He]; [apply Nat.leb_le in He; lia|].
    rewrite forallb_forall in He. apply He in Hin. unfold not_wild in Hin. rewrite Hw, String.eqb_refl in Hin. discriminate.
  - apply orb_true_iff in H4 as [H4|H4].
    + left. intros s Hs. rewrite Hs in H4. unfold untyped in H4. destruct (name_type ds s); [discriminate|cbn in H4; discriminate].
    + right. rewrite forallb_forall in H4. splits.
      * intros Hx. unfold default_type_of in Hx. apply first_of_in in Hx as (d & Hd & Ed). apply H4 in Hd. destruct d; try discriminate. injection Ed as ->. discriminate.
      * intros Hx. unfold extra_token_of in Hx. apply first_of_in in Hx as (d & Hd & Ed). apply H4 in Hd. destruct d; try discriminate. injection Ed as ->. discriminate.
      * intros n Hx. unfold type_of in Hx. apply first_of_in in Hx as (d & Hd & Ed). apply H4 in Hd. destruct d; try discriminate. destruct t as [t|]; [|discriminate]. destruct (n =? id)%string; [|discriminate]. injection Ed as ->. discriminate.
Qed.

(** The names that produce some token string, by repeated passes over the rules *)
Definition says_some (ds : list decl) (l : list ident) (n : ident) : bool :=
  (is_terminal_ident n && match class_of ds n with Some [] => false | _ => true end) || listed n l.
Definition elem_some (ds : list decl) (l : list ident) (e : rhs_elem) : bool :=
  match fst (fst e) with [n] => snd (fst e) || says_some ds l n | [] => false | _ => true end.
Definition say_pass (ds : list decl) (l : list ident) : list ident := map d_lhs (filter (fun d => forallb (elem_some ds l) (d_rhs d)) (rules_in ds)) ++ l.
Fixpoint say_list (k : nat) (ds : list decl) : list ident := match k with 0 => [] | S k => say_pass ds (say_list k ds) end.
Definition all_say_b (k : nat) (ds : list decl) : bool :=
  forallb (fun d => forallb (fun e => forallb (says_some ds (say_list k ds)) (fst (fst e))) (d_rhs d)) (rules_in ds).
Lemma says_some_ok ds l n : (forall m, In m l -> exists w, says ds eq m w) -> says_some ds l n = true -> exists w, says ds eq n w.
Proof.
  intros Hl H. unfold says_some in H. apply orb_true_iff in H as [H|H]; [|now apply Hl, listed_true]. apply andb_true_iff in H as [Hu Hc].
  destruct (class_of ds n) as [[|m ms]|] eqn:E; [discriminate| |]; [exists [m]|exists [n]]; eapply sa_tok; eauto; split; auto; rewrite E; cbn; auto.
Qed.
Lemma say_list_ok ds k : forall m, In m (say_list k ds) -> exists w, says ds eq m w.
Proof.
  induction k as [|k IH]; cbn; [contradiction|]. intros m Hm. unfold say_pass in Hm. apply in_app_or in Hm as [Hm|Hm]; [|auto]. apply in_map_iff in Hm as (d & <- & Hd). apply filter_In in Hd as [Hd He].
  enough (E : exists w, elems ds eq (d_rhs d) w) by (destruct E as (w & E); exists w; now constructor). rewrite forallb_forall in He.
  induction (d_rhs d) as [|e es IHe]; [exists []; constructor|]. destruct IHe as (w2 & H2); [intros; apply He; now right|]. enough (E : exists w, elem ds eq e w) by (destruct E as (w1 & E); exists (w1 ++ w2); now constructor).
  specialize (He e (or_introl eq_refl)). destruct e as [[ns o] al]. unfold elem_some in He. cbn in He. destruct ns as [|n [|n2 ns]]; [discriminate| |].
  - destruct o; [exists []; constructor|]. destruct (says_some_ok _ _ _ IH He) as (w & Hw). exists w. now constructor.
  - exists [n]. eapply el_alt; eauto; cbn; auto. lia.
Qed.
Lemma all_say_b_ok k ds : all_say_b k ds = true -> all_say ds.
Proof.
  unfold all_say_b. intros H d ns o al n Hd He Hn. rewrite forallb_forall in H. apply H in Hd. rewrite forallb_forall in Hd. apply Hd in He. cbn in He. rewrite forallb_forall in He. apply He in Hn.
  eapply says_some_ok; eauto. apply say_list_ok.
Qed.

(** ** A grammar is accepted, and its tables are right *)
Definition fine_b (ds : list decl) (b : built) : bool := flat_b ds && no_self_b ds && rows_apart_b b.
Lemma fine_b_ok ds b : fine_b ds b = true -> usable ds b.
Proof. unfold fine_b. intros H. apply andb_true_iff in H as [H H3]. apply andb_true_iff in H as [H1 H2]. constructor; auto using flat_b_ok, no_self_b_ok, rows_apart_b_ok. Qed.

(** ** Tokens *)
Definition token_wf_b {V} (t : tables) (k : token V) : bool := (0 <? fst k) && (fst k <? t_nterm t) && Bool.eqb (typed t (fst k)) (opt_is_some (snd k)).
Lemma token_wf_b_ok {V} t (k : token V) : token_wf_b t k = true -> token_wf t k.
Proof.
  unfold token_wf_b. intros H. apply andb_true_iff in H as [H H3]. apply andb_true_iff in H as [H1 H2]. apply Nat.ltb_lt in H1, H2. apply eqb_prop in H3. split; [lia|]. rewrite H3. destruct (snd k); cbn; split; congruence.
Qed.
Lemma tokens_wf_b_ok {V} b (ks : list (token V)) : forallb (token_wf_b (bt_tables b)) ks = true -> tokens_wf b ks.
Proof. intros H. rewrite forallb_forall in H. apply Forall_forall. intros k Hk. now apply token_wf_b_ok, H. Qed.
Definition dropped_b {M X R} (p : parser M X R) : bool := existsb (fun e => match e with EvDrop _ => true | _ => false end) (ps_log p).

(** *** Grammars of operators *)
Definition is_op (n : ident) (e : rhs_elem) : bool := match e with ([m], false, _) => String.eqb m n | _ => false end.
Definition tok_in (ds : list decl) (e : rhs_elem) : option ident :=
  match e with ([a], false, _) => if is_terminal_ident a then match class_of ds a with None => Some a | _ => None end else None | _ => None end.
Fixpoint apart_b (n : ident) (es : list rhs_elem) : bool := match es with e :: l => match l with e' :: _ => negb (is_op n e && is_op n e') && apart_b n l | [] => true end | [] => true end.
Definition op_rule_b (ds : list decl) (s n : ident) (d : drule) : bool :=
  (String.eqb (d_lhs d) s && match d_rhs d with [e] => is_op n e | _ => false end) ||
  (String.eqb (d_lhs d) n && match d_rhs d with [] => false | [e] => negb (is_op n e) | _ => true end && forallb (fun e => is_op n e || match tok_in ds e with Some _ => true | None => false end) (d_rhs d) && apart_b n (d_rhs d)).
Definition head_b (ds : list decl) (d : drule) : option ident := match d_rhs d with e :: _ => tok_in ds e | [] => None end.
Definition infix_b (ds : list decl) (n : ident) (es : list rhs_elem) : option ident := match es with o :: e :: _ => if is_op n o then tok_in ds e else None | _ => None end.
Fixpoint inner_b (ds : list decl) (n : ident) (es : list rhs_elem) (a : ident) : bool :=
  match infix_b ds n es with Some c => String.eqb c a | None => false end || match es with _ :: l => inner_b ds n l a | [] => false end.
Definition same_b (u v : option ident) : bool := match u, v with Some a, Some c => String.eqb a c | _, _ => false end.
Definition op_pair_b (ds : list decl) (s n : ident) (i j : nat) : bool :=
  match nth_error (rules_in ds) i, nth_error (rules_in ds) j with
  | Some di, Some dj =>
      (Nat.eqb i j || negb (String.eqb (d_lhs di) s && String.eqb (d_lhs dj) s) && negb (same_b (head_b ds di) (head_b ds dj)) && negb (same_b (infix_b ds n (d_rhs di)) (infix_b ds n (d_rhs dj)))) &&
      match infix_b ds n (d_rhs di) with Some a => negb (inner_b ds n (tl (d_rhs dj)) a) | None => true end
  | _, _ => true
  end.
Definition operators_b (ds : list decl) (s n : ident) : bool :=
  match start_of ds with Some s' => String.eqb s' s | None => false end && is_nonterminal_ident s && is_nonterminal_ident n && negb (String.eqb s n) &&
  forallb (op_rule_b ds s n) (rules_in ds) && forallb (fun i => forallb (op_pair_b ds s n i) (seq 0 (List.length (rules_in ds)))) (seq 0 (List.length (rules_in ds))).
Lemma is_op_ok n e : is_op n e = true <-> operand n e.
Proof.
  split.
  - destruct e as [[[|m [|? ?]] []] al]; cbn; try discriminate. intros H. apply String.eqb_eq in H as ->. now exists al.
  - intros (al & ->). cbn. apply String.eqb_refl.
Qed.
Lemma tok_in_ok ds e a : tok_in ds e = Some a <-> is_token ds a e.
Proof.
  split.
  - destruct e as [[[|m [|? ?]] []] al]; cbn; try discriminate. destruct (is_terminal_ident m) eqn:U; [|discriminate]. destruct (class_of ds m) eqn:C; [discriminate|]. intros [= <-]. split; [exact U|]. split; [exact C|]. now exists al.
  - intros (U & C & al & ->). cbn. now rewrite U, C.
Qed.
Lemma apart_ok n es : apart_b n es = true -> forall l e e' l', es = l ++ e :: e' :: l' -> operand n e -> ~ operand n e'.
Proof.
  induction es as [|x es IH]; intros H l e e' l' E Ho Ho'; [destruct l; discriminate|]. destruct l as [|y l].
  - injection E as -> ->. cbn in H. apply andb_prop in H as [H _]. apply is_op_ok in Ho, Ho'. rewrite Ho, Ho' in H. discriminate.
  - injection E as -> E. assert (H' : apart_b n es = true) by (destruct es; [reflexivity|]; cbn [apart_b] in H; apply andb_prop in H as [_ H]; exact H). exact (IH H' l e e' l' E Ho Ho').
Qed.
Lemma infix_ok ds n o e l a : operand n o -> is_token ds a e -> infix_b ds n (o :: e :: l) = Some a.
Proof. intros Ho Ht. cbn. apply is_op_ok in Ho as ->. now apply tok_in_ok. Qed.
Lemma inner_ok ds n l1 o e l2 a : operand n o -> is_token ds a e -> inner_b ds n (l1 ++ o :: e :: l2) a = true.
Proof.
  intros Ho Ht. induction l1 as [|y l1 IH]; cbn [inner_b app].
  - rewrite (infix_ok ds n o e l2 a Ho Ht), String.eqb_refl. reflexivity.
  - rewrite IH. apply Bool.orb_true_r.
Qed.
Lemma same_b_refl a : same_b (Some a) (Some a) = true. Proof. apply String.eqb_refl. Qed.
Lemma operators_b_ok ds s n : operators_b ds s n = true -> operators ds s n.
Proof.
  unfold operators_b. rewrite !Bool.andb_true_iff. intros (((((H1 & H2) & H3) & H4) & H5) & H6). rewrite forallb_forall in H5, H6.
  assert (HP : forall i j di dj, nth_error (rules_in ds) i = Some di -> nth_error (rules_in ds) j = Some dj ->
    (i = j \/ ~ (d_lhs di = s /\ d_lhs dj = s) /\ same_b (head_b ds di) (head_b ds dj) = false /\ same_b (infix_b ds n (d_rhs di)) (infix_b ds n (d_rhs dj)) = false) /\
    forall a, infix_b ds n (d_rhs di) = Some a -> inner_b ds n (tl (d_rhs dj)) a = false).
  { intros i j di dj Hi Hj. assert (Li : i < List.length (rules_in ds)) by (apply nth_error_Some; congruence). assert (Lj : j < List.length (rules_in ds)) by (apply nth_error_Some; congruence).
    specialize (H6 i ltac:(apply in_seq; lia)). rewrite forallb_forall in H6. specialize (H6 j ltac:(apply in_seq; lia)). unfold op_pair_b in H6. rewrite Hi, Hj in H6. apply andb_prop in H6 as [HA HB]. split.
    - apply Bool.orb_true_iff in HA as [HA|HA]; [left; now apply Nat.eqb_eq|right]. rewrite !Bool.andb_true_iff, !Bool.negb_true_iff in HA. destruct HA as ((HA & HC) & HD). splits; auto. intros [E1 E2]. rewrite E1, E2, String.eqb_refl in HA. discriminate.
    - intros a Ha. rewrite Ha in HB. now apply Bool.negb_true_iff in HB. }
  constructor; auto.
  - destruct (start_of ds) as [s'|]; [|discriminate]. apply String.eqb_eq in H1 as ->. reflexivity.
  - intros ->. rewrite String.eqb_refl in H4. discriminate.
  - intros i j di dj Hi Hj E1 E2. destruct (HP _ _ _ _ Hi Hj) as [[E|(N & _)] _]; auto. exfalso. auto.
  - intros d Hd. specialize (H5 d Hd). unfold op_rule_b in H5. apply Bool.orb_true_iff in H5 as [H|H].
    + apply andb_prop in H as [HL HR]. apply String.eqb_eq in HL. left. split; auto. destruct (d_rhs d) as [|e [|? ?]]; try discriminate. exists e. split; auto. now apply is_op_ok.
    + rewrite !Bool.andb_true_iff in H. destruct H as (((HL & HR) & HF) & HX). apply String.eqb_eq in HL. right. splits; auto.
      * intros E. rewrite E in HR. discriminate.
      * intros e E Ho. rewrite E in HR. apply is_op_ok in Ho. rewrite Ho in HR. discriminate.
      * intros e He. rewrite forallb_forall in HF. specialize (HF e He). apply Bool.orb_true_iff in HF as [HF|HF]; [left; now apply is_op_ok|right]. destruct (tok_in ds e) as [a|] eqn:Et; [|discriminate]. exists a. now apply tok_in_ok.
      * now apply apart_ok.
  - intros i j di dj a e e' l l' Hi Hj E1 E2 T1 T2. destruct (HP _ _ _ _ Hi Hj) as [[E|(_ & N & _)] _]; auto. exfalso. unfold head_b in N. rewrite E1, E2 in N. apply tok_in_ok in T1, T2. rewrite T1, T2, same_b_refl in N. discriminate.
  - intros i j di dj a o o' e e' l l' Hi Hj E1 E2 O1 O2 T1 T2. destruct (HP _ _ _ _ Hi Hj) as [[E|(_ & _ & N)] _]; auto. exfalso. rewrite E1, E2, (infix_ok ds n _ _ _ a O1 T1), (infix_ok ds n _ _ _ a O2 T2), same_b_refl in N. discriminate.
  - intros i j di dj a o o' e e' l l1 l2 Hi Hj E1 E2 O1 O2 T1 T2. destruct l1 as [|y l1]; auto. exfalso. destruct (HP _ _ _ _ Hi Hj) as [_ N]. rewrite E1 in N. specialize (N a (infix_ok ds n _ _ _ a O1 T1)). rewrite E2 in N. cbn [app tl] in N.
    rewrite (inner_ok ds n l1 o' e' l2 a O2 T2) in N. discriminate.
Qed.

(** *** Trees nested as declared *)
Fixpoint subs (T : dtree) (w : list ident) : list (dtree * list ident) :=
  (T, w) :: match T with
            | LRule _ ts => (fix go (ts : list dtree) : list (dtree * list ident) := match ts with [] => [] | c :: r => subs c (flat_map leaves r ++ w) ++ go r end) ts
            | LSome c => subs c w
            | _ => []
            end.
Fixpoint heads (T : dtree) : list dtree := T :: match T with LRule _ (c :: _) => heads c | LSome c => heads c | _ => [] end.
Lemma subs_ok t w T w' : occurs t w T w' -> In (t, w) (subs T w').
Proof.
  induction 1 as [|i l c r w' _ IH|c w' _ IH].
  - destruct t; now left.
  - cbn [subs]. right. induction l as [|x l IHl]; cbn [app]; apply in_app_iff; [left; exact IH|right; exact IHl].
  - right. exact IH.
Qed.
Lemma heads_ok t T : leads t T -> In t (heads T).
Proof. induction 1; [destruct t; now left|right; assumption|right; assumption]. Qed.
Definition stands_b (ds : list decl) (a n : ident) : bool := is_terminal_ident n && match class_of ds n with Some l => existsb (String.eqb a) l | None => String.eqb a n end.
Definition shows_b (ds : list decl) (a : ident) (e : rhs_elem) : bool :=
  let '(ns, o, _) := e in match ns with [n] => negb o && stands_b ds a n | _ => existsb (String.eqb a) ns end.
Definition ends_b (ds : list decl) (i : nat) : option (drule * ident) :=
  match nth_error (rules_in ds) i with Some d => match rev (d_rhs d) with ([n], false, _) :: _ => Some (d, n) | _ => None end | None => None end.
Definition starts_b (ds : list decl) (j : nat) (n a : ident) : bool :=
  match nth_error (rules_in ds) j with Some d => String.eqb (d_lhs d) n && match d_rhs d with o :: e :: _ => is_op n o && shows_b ds a e | _ => false end | None => false end.
Definition over_b (ds : list decl) (a : ident) (d : drule) (tok : bool) : bool :=
  match assoc_of ds a, prec_of ds d with
  | Some (i, u), Some (j, v) => if tok then (j <? i) || (i =? j) && match u with ARight => true | _ => false end else (i <? j) || (i =? j) && match u with ALeft => true | _ => false end
  | _, _ => false
  end.
Definition nested_b (ds : list decl) (T : dtree) : bool :=
  forallb (fun q => match q with
    | (LRule i ts, w) => match ends_b ds i with
        | None => true
        | Some (di, n) =>
            (negb (String.eqb (d_lhs di) n) || match rev ts with [] => true | c :: _ => forallb (fun h => match h with LRule j (_ :: LTok a :: _) => negb (starts_b ds j n a) || over_b ds a di true | _ => true end) (heads c) end) &&
            match w with [] => true | a :: _ => forallb (fun j => negb (starts_b ds j n a) || over_b ds a di false) (seq 0 (List.length (rules_in ds))) end
        end
    | _ => true
    end) (subs T []).
Lemma existsb_str a l : In a l -> existsb (String.eqb a) l = true.
Proof. intros H. apply existsb_exists. exists a. split; auto. apply String.eqb_refl. Qed.
Lemma shows_b_ok ds a e : shows ds a e -> shows_b ds a e = true.
Proof.
  intros [(n & al & -> & U & H)|(ns & o & al & -> & L & H)].
  - cbn. unfold stands_b. rewrite U. cbn. destruct (class_of ds n); [now apply existsb_str|subst; apply String.eqb_refl].
  - cbn. destruct ns as [|x [|y ns]]; cbn in L; try lia. now apply existsb_str.
Qed.
Lemma starts_b_ok ds j n a : starts_with ds j n a -> starts_b ds j n a = true /\ j < List.length (rules_in ds).
Proof.
  intros (d & al & e & es & Hd & HL & HR & HS). split; [|apply nth_error_Some; congruence]. unfold starts_b. rewrite Hd, HL, HR, String.eqb_refl. apply shows_b_ok in HS as ->. cbn. rewrite String.eqb_refl. reflexivity.
Qed.
Lemma ends_b_ok ds i di n : ends_in ds i di n -> ends_b ds i = Some (di, n).
Proof. intros (Hd & es & al & HR). unfold ends_b. rewrite Hd, HR, rev_app_distr. reflexivity. Qed.
Lemma over_b_ok ds a d (k : bool) : over_b ds a d k = true -> if k then tok_over ds a d else rule_over ds d a.
Proof.
  unfold over_b. destruct (assoc_of ds a) as [[i u]|] eqn:E1; [|discriminate]. destruct (prec_of ds d) as [[j v]|] eqn:E2; [|discriminate].
  destruct k; intros H; exists i, u, j, v; splits; auto; apply Bool.orb_true_iff in H as [H|H]; [left; now apply Nat.ltb_lt| |left; now apply Nat.ltb_lt|];
    (right; apply andb_prop in H as [H1 H2]; apply Nat.eqb_eq in H1; destruct u; try discriminate; auto).
Qed.
Lemma nested_b_ok ds T : nested_b ds T = true -> nested ds T.
Proof.
  unfold nested_b. rewrite forallb_forall. intros H. constructor.
  - intros i di n l c w j u a us HO HE HL HG HS. specialize (H _ (subs_ok _ _ _ _ HO)). cbn beta iota in H. rewrite (ends_b_ok _ _ _ _ HE), HL, String.eqb_refl, rev_app_distr in H. cbn [rev app negb orb] in H.
    apply andb_prop in H as [H _]. rewrite forallb_forall in H. specialize (H _ (heads_ok _ _ HG)). cbn beta iota in H. destruct (starts_b_ok _ _ _ _ HS) as [E _]. rewrite E in H. exact (over_b_ok ds a di true H).
  - intros i di n ts a w j HO HE HS. specialize (H _ (subs_ok _ _ _ _ HO)). cbn beta iota in H. rewrite (ends_b_ok _ _ _ _ HE) in H. apply andb_prop in H as [_ H]. rewrite forallb_forall in H.
    destruct (starts_b_ok _ _ _ _ HS) as [E L]. specialize (H j ltac:(apply in_seq; lia)). cbn beta iota in H. rewrite E in H. exact (over_b_ok ds a di false H).
Qed.
