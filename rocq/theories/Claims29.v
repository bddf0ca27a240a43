(** [q?] and the nonterminal written out for it are accepted alike (C53). *)
From Verif Require Import Base Syntax BaseFacts FrontEnd First States Actions Tables Runtime User Spec WfGrammar FrontFacts DeclSpec DeclFacts DeclMore MeanSpec PipeFacts BuildFacts GramFacts LangFacts
  PanicFacts TypeFacts TypeDecl ActFacts FaultSpec LalrFacts Main Claims6 Claims13 IsoFacts OrderIso Claims28 OptIso.
From Verif Require Claims22 Claims23.
Open Scope string_scope. Open Scope nat_scope. Open Scope list_scope.

(** ** Faults that do not come from the rules that differ *)
Section OneWay.
Context (ds ds0 : list decl) (o : ident) (new : decl -> Prop) (LO : lower o).
Context (SPL : forall l1 d l2, ds = l1 ++ d :: l2 -> is_rule d = false -> ~ new d -> exists k1 k2, ds0 = k1 ++ d :: k2 /\ others k1 = others l1).
Context (NEW : forall d, new d -> exists t, d = DType 0 o t) (NT : forall l1 d l2, ds = l1 ++ d :: l2 -> new d -> type_of l1 o = None) (NDEC : forall d, new d \/ ~ new d).
Context (FB : forall n, fallback_of ds0 n = fallback_of ds n) (WN : wildcard_of ds = None) (ST : start_of ds0 = start_of ds) (SO : forall s, start_of ds = Some s -> s <> o).
Context (NTY : forall n, n <> o -> name_type ds0 n = name_type ds n) (FO : forall a c, fallback_of ds a = Some c -> a <> o /\ c <> o).
Context (EL : forall ns b a, has_elem ds (ns, b, a) -> ~ In o ns -> exists b' a', has_elem ds0 (ns, b', a')) (EB : forall b a, has_elem ds ([o], b, a) -> exists r, In r (rules_in ds) /\ d_lhs r = o).
Context (MU : forall ns b a, has_elem ds (ns, b, a) -> 2 <= List.length ns -> has_elem ds0 (ns, b, a)).
Context (RU : forall r, In r (rules_in ds) -> d_lhs r = o /\ d_prec r = None \/ exists r0, In r0 (rules_in ds0) /\ d_lhs r0 = d_lhs r /\ d_prec r0 = d_prec r).
Context (RB : forall r0, In r0 (rules_in ds0) -> d_lhs r0 = o \/ exists r, In r (rules_in ds) /\ d_lhs r0 = d_lhs r) (NE : rules_in ds <> []).

Lemma ow1_in d : In d ds -> is_rule d = false -> ~ new d -> In d ds0.
Proof. intros H HR HN. apply in_split in H as (l1 & l2 & E). destruct (SPL _ _ _ E HR HN) as (k1 & k2 & -> & _). apply in_app_iff. right. now left. Qed.
Lemma ow1_before d k1 l1 : others k1 = others l1 -> In d l1 -> is_rule d = false -> In d k1.
Proof. intros E H HR. assert (HI : In d (others k1)) by (rewrite E; apply filter_In; split; auto; now rewrite HR). now apply filter_In in HI. Qed.
Lemma ow1_type d : ~ new d \/ exists t, d = DType 0 o t.
Proof. destruct (NDEC d) as [H|H]; auto. Qed.
Lemma ow1_not d : (forall t, d <> DType 0 o t) -> ~ new d.
Proof. intros H HN. destruct (NEW _ HN) as [t E]. exact (H t E). Qed.
Lemma ow1_twice k : twice k ds -> twice k ds0.
Proof.
  intros (i & j & d & e & L & Hi & Hj & K1 & K2). assert (RE : is_rule e = false) by (destruct e; auto; discriminate). assert (RD : is_rule d = false) by (destruct d; auto; discriminate).
  apply nth_error_split in Hj as (l1 & l2 & E & EJ). rewrite E, nth_error_app1 in Hi by lia. apply nth_error_In in Hi.
  destruct (SPL _ _ _ E RE) as (k1 & k2 & E0 & EO); [apply ow1_not; intros t ->; discriminate|]. pose proof (ow1_before _ _ _ EO Hi RD) as HI. apply In_nth_error in HI as [i0 HI].
  assert (Li : i0 < List.length k1) by (apply nth_error_Some; congruence). exists i0, (List.length k1), d, e. subst ds0. splits; auto.
  - now rewrite nth_error_app1.
  - rewrite nth_error_app2, Nat.sub_diag by lia. reflexivity.
Qed.
Lemma fb_others n l : fallback_of l n = fallback_of (others l) n.
Proof. unfold fallback_of. exact (first_others (fun d => match d with DFallback fb ids => if listed n ids then Some fb else None | _ => None end) (fun _ _ _ _ => eq_refl) l). Qed.
Lemma ty_others n l : type_of l n = type_of (others l) n.
Proof. unfold type_of. exact (first_others (fun d => match d with DType _ id (Some t) => if String.eqb n id then Some t else None | _ => None end) (fun _ _ _ _ => eq_refl) l). Qed.
Lemma fb_same k1 l1 n : others k1 = others l1 -> fallback_of k1 n = fallback_of l1 n.
Proof. intros E. rewrite (fb_others n k1), (fb_others n l1). now rewrite E. Qed.
Lemma falls_same k1 l1 a b : others k1 = others l1 -> falls l1 a b -> falls k1 a b.
Proof. intros E. induction 1; [constructor|]. eapply fl_step; eauto. now rewrite (fb_same k1 l1). Qed.

Definition of_rules (e : gerr) : Prop := e = ETypedNoCode \/ e = ENotReduced \/ e = EConflicts \/ e = ECompoundAlias.
Theorem same_faults e : ~ of_rules e -> fault ds e -> fault ds0 e.
Proof.
  intros HR HF. unfold of_rules in HR.
  assert (KEEP : forall d, In d ds -> is_rule d = false -> (forall t, d <> DType 0 o t) -> In d ds0) by (intros d H1 H2 H3; apply ow1_in; auto; now apply ow1_not).
  destruct e; cbn in HF |- *; try (now apply ow1_twice); try (exfalso; apply HR; tauto).
  - destruct HF as (k & n & t & H & L & HF). exists k, n, t. splits; auto. apply KEEP; auto. intros t' E. injection E as -> _ _. lia.
  - destruct HF as (n & H1 & H2 & HF). assert (Ho : n <> o) by (intros ->; unfold lower in LO; congruence). exists n. splits; auto. destruct HF as [(k & t & H)|(b & a & H)].
    + left. exists k, t. apply KEEP; auto. intros t' E. injection E as _ E _. contradiction.
    + right. apply EL in H; auto. intros [E|[]]. now apply Ho.
  - destruct HF as (l1 & k & n & t & l2 & E & HF). destruct (NDEC (DType k n t)) as [HN|HN].
    + exfalso. destruct (NEW _ HN) as [t' Et]. injection Et as -> -> ->. apply HF. exact (NT _ _ _ E HN).
    + destruct (SPL _ _ _ E eq_refl HN) as (k1 & k2 & E0 & EO). exists k1, k, n, t, k2. split; auto. rewrite (ty_others n k1), EO, <- (ty_others n l1). exact HF.
  - destruct HF as (a & ids & n & H & HF). exists a, ids, n. split; auto. apply KEEP; auto; discriminate.
  - destruct HF as (l1 & a & ids & l2 & E & HF). destruct (SPL _ _ _ E eq_refl) as (k1 & k2 & E0 & EO); [apply ow1_not; discriminate|]. exists k1, a, ids, k2. split; auto. destruct HF as [HF|(n & Hn & HF)]; auto.
    right. exists n. split; auto. unfold assoc_of in *. rewrite (assoc_others n k1), EO, <- (assoc_others n l1). exact HF.
  - destruct HF as (n & H & HF). exists n. split; auto. apply KEEP; auto; discriminate.
  - destruct HF as (fb & ids & n & H & HF). exists fb, ids, n. split; auto. apply KEEP; auto; discriminate.
  - destruct HF as (fb & ids & H & HF). exists fb, ids. split; auto. apply KEEP; auto; discriminate.
  - destruct HF as (l1 & fb & ids & l2 & c & n & E & H1 & H2 & Hn). destruct (SPL _ _ _ E eq_refl) as (k1 & k2 & E0 & EO); [apply ow1_not; discriminate|]. exists k1, fb, ids, k2, c, n. splits; auto; [now rewrite (fb_same k1 l1)|eapply falls_same; eauto].
  - destruct HF as (l1 & fb & ids & l2 & E & HF). destruct (SPL _ _ _ E eq_refl) as (k1 & k2 & E0 & EO); [apply ow1_not; discriminate|]. exists k1, fb, ids, k2. split; auto. destruct HF as [HF|(n & Hn & HF)]; auto.
    right. exists n. split; auto. now rewrite (fb_same k1 l1).
  - destruct HF as (n & H & HF). exists n. split; auto. apply KEEP; auto; discriminate.
  - destruct HF as (n & ids & H & HF). exists n, ids. split; auto. apply KEEP; auto; discriminate.
  - destruct HF as (c & ids & n & H & HF). exists c, ids, n. split; auto. apply KEEP; auto; discriminate.
  - destruct HF as (l1 & n & t & l2 & m & u & E & HF). destruct (SPL _ _ _ E eq_refl) as (k1 & k2 & E0 & EO); [apply ow1_not; discriminate|]. exists k1, n, t, k2, m, u. split; auto. eapply ow1_before; eauto.
  - destruct HF as (r & H & HF). destruct (RU _ H) as [[E _]|(r0 & H0 & E & _)]; [rewrite E in HF; unfold lower in LO; congruence|]. exists r0. split; auto. now rewrite E.
  - destruct HF as (ns & b & a & n & H & L & HF). exists ns, b, a, n. splits; auto; apply HF.
  - destruct HF as (r & n & H & HP & HF). destruct (RU _ H) as [[_ E]|(r0 & H0 & _ & E)]; [congruence|]. exists r0, n. splits; auto. congruence.
  - destruct HF as (n & b & a & H & HF). pose proof (SO _ H) as Hn. destruct (EL _ _ _ HF) as (b' & a' & HF'); [intros [E|[]]; now apply Hn|]. exists n, b', a'. split; auto. now rewrite ST.
  - destruct HF as (n & b & a & H1 & H2 & H3 & H4). destruct (string_dec n o) as [->|Hn]; [exfalso; destruct (EB _ _ H1) as (r & Hr & E); exact (H4 _ Hr E)|].
    destruct (EL _ _ _ H1) as (b' & a' & HF'); [intros [E|[]]; now apply Hn|]. exists n, b', a'. splits; auto. intros r0 Hr0 E. destruct (RB _ Hr0) as [E'|(r & Hr & E')]; [congruence|]. apply (H4 _ Hr). congruence.
  - destruct HF as (w & H1 & _). congruence.
  - destruct HF as (n & gs & H & HF). exists n, gs. split; auto. apply KEEP; auto; discriminate.
  - destruct HF as (n & gs & H & HF). exists n, gs. split; auto. apply KEEP; auto; discriminate.
  - destruct HF as (n & gs & m & hs & x & H1 & H2 & H3 & H4). exists n, gs, m, hs, x. splits; auto; apply KEEP; auto; discriminate.
  - destruct HF as (a & c & H1 & H2). destruct (FO _ _ H1) as [Ha Hc]. exists a, c. now rewrite FB, !NTY.
  - destruct HF as (w & b & a & H1 & _). congruence.
Qed.
End OneWay.

Lemma class_mentions ds n ms : class_of ds n = Some ms -> mentions ds n /\ forall m, In m ms -> mentions ds m.
Proof.
  revert ms. induction ds as [|d ds IH]; intros ms H; [discriminate|]. cbn [class_of] in H.
  assert (UP : forall x, mentions ds x -> mentions (d :: ds) x) by (intros x (d' & H1 & H2); exists d'; split; auto; now right).
  destruct (class_line n d) as [l|] eqn:El; [|destruct (IH _ H) as [H1 H2]; split; auto].
  destruct d; try discriminate. cbn in El. match type of El with (if String.eqb n ?i then Some ?is else _) = _ => destruct (String.eqb_spec n i) as [<-|]; [injection El as <-|discriminate]; set (dd := DTokenClass n is) in * end.
  assert (HM : forall x, In x (mention dd) -> mentions (dd :: ds) x) by (intros x Hx; exists dd; split; auto; now left).
  split; [apply HM; now left|]. intros m Hm. destruct (class_of ds n) as [l'|]; injection H as <-; [apply in_app_iff in Hm as [Hm|Hm]|]; try (apply HM; now right). apply UP. now apply (proj2 (IH _ eq_refl)).
Qed.
Lemma fallback_mentions ds a c : fallback_of ds a = Some c -> mentions ds a /\ mentions ds c.
Proof. intros H. destruct (Claims22.fallback_lists _ _ _ H) as (ids & H1 & H2). split; exists (DFallback c ids); split; auto; [now right|now left]. Qed.
Lemma typed_is ds e : elem_typed ds e = opt_is_some (elem_type ds e).
Proof. destruct e as [[[|n [|m l]] [|]] a]; reflexivity. Qed.
Lemma unprecedented ds g opts R : declared ds g opts -> (forall m, assoc_of ds m = None) -> ordered g R.
Proof.
  intros DE AN gamma a r r' s s' _ _ HP _ _ _. exfalso. apply HP. unfold grule. destruct (nth_error (g_rules g) r) as [ru|] eqn:E.
  - rewrite (nth_error_nth _ _ _ E). eapply no_rule_prec; eauto.
  - now rewrite nth_overflow by now apply nth_error_None.
Qed.

Section Written.
Context (ds1 ds' : list decl) (q o al : ident) (cs cn : nat).
Notation ds2 := (ds' ++ opt_lines (or_unit (raw_type ds1 q)) q o al cs cn).
Notation DT := (DType 0 o (Some (TyOption (or_unit (raw_type ds1 q))))).
Context (UW : Forall2 (unwrapped_decl q o) ds1 ds') (NM : ~ mentions ds1 o) (LO : lower o) (QO : q <> o).
Context (NQ : forall a, ~ has_elem ds' ([q], true, a)) (OC : exists a, has_elem ds1 ([q], true, a)) (PL : plain ds1).

Definition unwrapped_whole (d d' : drule) : Prop := unwrapped_rule q o d d' /\ d_prec d' = d_prec d.
Lemma wo_rules : Forall2 unwrapped_whole (rules_in ds1) (rules_in ds').
Proof.
  clear -UW. induction UW as [|d d' l l' Hd HF IH]; cbn; [constructor|]. destruct Hd as [d|lh r r' c p HE]; cbn.
  - destruct d; auto. constructor; auto. unfold unwrapped_whole, unwrapped_rule. cbn. splits; auto. clear. induction rhs; constructor; auto. constructor.
  - constructor; auto. unfold unwrapped_whole, unwrapped_rule. cbn. auto.
Qed.
Lemma wo_in' d : In d (rules_in ds') -> In d (rules_in ds2).
Proof. intros H. rewrite rules_app. apply in_app_iff. now left. Qed.
Lemma wo_some : In (mkDr o [([q], false, Some al)] (Some cs) None) (rules_in ds2).
Proof. rewrite rules_app. apply in_app_iff. right. now left. Qed.
Lemma wo_class n : class_of ds2 n = class_of ds1 n. Proof. exact (ow_class ds1 ds' q o al cs cn UW n). Qed.
Lemma wo_raw n : n <> o -> raw_type ds2 n = raw_type ds1 n. Proof. exact (ow_raw ds1 ds' q o al cs cn UW n). Qed.
Lemma wo_dflt : default_type_of ds2 = default_type_of ds1. Proof. unfold default_type_of. now apply (ow_first ds1 ds' q o al cs cn UW). Qed.
Lemma wo_wild : wildcard_of ds2 = wildcard_of ds1. Proof. unfold wildcard_of. now apply (ow_first ds1 ds' q o al cs cn UW). Qed.
Lemma wo_fb n : fallback_of ds2 n = fallback_of ds1 n. Proof. unfold fallback_of. now apply (ow_first ds1 ds' q o al cs cn UW). Qed.
Lemma wo_name n : n <> o -> name_type ds2 n = name_type ds1 n.
Proof.
  intros Hn. assert (HO : forall m, m <> o -> own_of ds2 m = own_of ds1 m) by (intros m Hm; unfold own_of, is_wild; now rewrite wo_wild, wo_dflt, wo_raw).
  unfold name_type, is_wild. rewrite wo_wild, wo_dflt, wo_class. destruct (class_of ds1 n) as [[|c l]|] eqn:Ec; rewrite HO; auto. intros ->. apply NM. apply (proj2 (class_mentions _ _ _ Ec)). now left.
Qed.
Lemma wo_start : start_of ds2 = start_of ds1.
Proof.
  unfold start_of, start_line. rewrite (ow_first ds1 ds' q o al cs cn UW) by reflexivity. destruct (DeclSpec.first_of _ ds1); auto. rewrite rules_app. pose proof wo_rules as HF. destruct OC as (a & r & Hr & _).
  destruct HF as [|d d' k k' [[E _] _] _]; [destruct Hr|]. cbn. congruence.
Qed.
Lemma wo_assoc n : assoc_of ds2 n = None.
Proof. rewrite (ow_assoc ds1 ds' q o al cs cn UW). apply PL. Qed.
Lemma wo_mid2 l1 d l2 : ds2 = l1 ++ d :: l2 -> is_rule d = false -> d <> DT -> exists k1 k2, ds1 = k1 ++ d :: k2 /\ others k1 = others l1.
Proof.
  intros E HR Hd. pose proof (ow_others ds1 ds' q o al cs cn UW) as EO. rewrite E in EO. unfold others at 1 in EO. rewrite filter_app in EO. cbn [filter] in EO. rewrite HR in EO. cbn [negb] in EO.
  fold (others l1) in EO. fold (others l2) in EO. destruct (exists_last (l := d :: others l2)) as (z & y & Ez); [discriminate|]. rewrite Ez, app_assoc in EO. apply app_inj_tail in EO as [EO Ey].
  destruct z as [|d' z]; cbn in Ez; injection Ez as <- Ez; [exfalso; now apply Hd|]. destruct (Claims22.filter_mid (fun d => negb (is_rule d)) d ds1 (others l1) z (eq_sym EO)) as (k1 & k2 & E1 & E2). eauto.
Qed.
Lemma wo_mid1 l1 d l2 : ds1 = l1 ++ d :: l2 -> is_rule d = false -> exists k1 k2, ds2 = k1 ++ d :: k2 /\ others k1 = others l1.
Proof.
  intros E HR. pose proof (ow_others ds1 ds' q o al cs cn UW) as EO. revert EO. generalize ds2 as D. intros D EO. rewrite E in EO. unfold others at 2 in EO. rewrite filter_app in EO. cbn [filter] in EO. rewrite HR in EO. cbn [negb] in EO.
  fold (others l1) in EO. rewrite <- app_assoc in EO. cbn [app] in EO. destruct (Claims22.filter_mid (fun d => negb (is_rule d)) d D (others l1) _ EO) as (k1 & k2 & E1 & E2). eauto.
Qed.
Lemma wo_o d : In d (rules_in ds1) -> d_lhs d <> o /\ forall e, In e (d_rhs d) -> ~ In o (fst (fst e)).
Proof. exact (ow_mention ds1 o NM d). Qed.
Lemma wo_elem2 ns b a : has_elem ds2 (ns, b, a) -> has_elem ds1 (ns, b, a) \/ ns = [o] /\ b = false \/ ns = [q].
Proof.
  intros (r & Hr & He). apply ow_in2 in Hr as [Hr|[->| ->]]; [| |destruct He].
  - destruct (GramFacts.forall2_in_r _ _ _ wo_rules _ Hr) as (d & Hd & (_ & _ & HF) & _). destruct (GramFacts.forall2_in_r _ _ _ HF _ He) as (e & He1 & HU). inversion HU; subst; auto. left. exists d. auto.
  - cbn in He. destruct He as [He|[]]. injection He as <- <- _. auto.
Qed.
Lemma wo_elem1 ns b a : has_elem ds1 (ns, b, a) -> has_elem ds2 (ns, b, a) \/ ns = [q].
Proof.
  intros (r & Hr & He). destruct (GramFacts.forall2_in_l _ _ _ wo_rules _ Hr) as (d & Hd & (_ & _ & HF) & _). destruct (GramFacts.forall2_in_l _ _ _ HF _ He) as (e & He1 & HU). inversion HU; subst; auto. left. exists d. split; auto. now apply wo_in'.
Qed.
Lemma wo_typed e e' : unwrapped q o e e' -> ~ In o (fst (fst e)) -> elem_typed ds2 e' = elem_typed ds1 e.
Proof. intros H1 H2. rewrite !typed_is. exact (ow_typed ds1 ds' q o al cs cn UW LO e e' H1 H2). Qed.
Lemma wo_hands d d' : In d (rules_in ds1) -> unwrapped_rule q o d d' -> hands_on ds1 d <-> hands_on ds2 d'.
Proof.
  intros Hd (_ & _ & HF). destruct (wo_o _ Hd) as [_ HO]. unfold hands_on.
  assert (EQ : List.length (filter (elem_typed ds2) (d_rhs d')) = List.length (filter (elem_typed ds1) (d_rhs d))).
  { clear Hd. induction HF as [|e e' l l' He HF IH]; auto. cbn [filter]. rewrite (wo_typed e e' He) by (apply HO; now left). specialize (IH (fun x Hx => HO x (or_intror Hx))). destruct (elem_typed ds1 e); cbn; auto. }
  rewrite EQ. assert (EA : (forall e, In e (d_rhs d) -> alias_of e = false) <-> (forall e, In e (d_rhs d') -> alias_of e = false)).
  { clear -HF. split; intros H e He.
    - destruct (GramFacts.forall2_in_r _ _ _ HF _ He) as (e1 & H1 & HU). specialize (H _ H1). destruct HU; auto.
    - destruct (GramFacts.forall2_in_l _ _ _ HF _ He) as (e1 & H1 & HU). specialize (H _ H1). destruct HU; auto. }
  tauto.
Qed.
Lemma wo_choices e : choices ds2 e = choices ds1 e.
Proof. destruct e as [[[|n [|m l]] b] a]; cbn; auto. apply wo_class. Qed.
Lemma wo_chosen d e m ms n : In d (rules_in ds1) -> In e (d_rhs d) -> choices ds1 e = Some (m :: ms) -> In n ms -> n <> o /\ choice_type ds2 e = choice_type ds1 e.
Proof.
  intros Hd He HC Hn. destruct (wo_o _ Hd) as [_ HO]. specialize (HO _ He). destruct e as [[[|x [|y l]] b] a]; cbn in HC, HO |- *; [discriminate| |].
  - split; [intros ->; apply NM; apply (proj2 (class_mentions _ _ _ HC)); now right|]. rewrite wo_name; auto.
  - injection HC as <- <-. split; [intros ->; cbn in HO, Hn; tauto|]. rewrite wo_name, wo_dflt; auto.
Qed.
Lemma wo_reads d d' e : In d (rules_in ds1) -> unwrapped_rule q o d d' -> In e (d_rhs d) -> reads ds1 d e <-> reads ds2 d' e.
Proof.
  intros Hd (E1 & E2 & _) He. destruct (wo_o _ Hd) as [N1 N2]. unfold reads. rewrite E1, E2, (wo_raw _ N1), (wo_typed e e); [tauto|constructor|now apply N2].
Qed.
Lemma wo_pair a r : In r (rules_in ds1) -> In ([q], true, a) (d_rhs r) -> forall m ms n, class_of ds1 q = Some (m :: ms) -> In n ms -> n <> o /\ choice_type ds2 ([q], false, Some al) = choice_type ds1 ([q], true, a).
Proof. intros Hr He m ms n HC Hn. destruct (wo_chosen r ([q], true, a) m ms n Hr He HC Hn) as [H1 H2]. split; auto. Qed.

Lemma wo_iso g1 g2 : written ds1 g1 -> written ds2 g2 -> (conflicting g1 <-> conflicting g2) /\ ((exists r, lost g1 r) <-> exists r, lost g2 r).
Proof.
  intros W1 W2. destruct W1 as [F1 (o1 & D1)]. destruct W2 as [F2 (o2 & D2)].
  pose proof (opt_iso ds1 ds' q o al cs cn _ UW NM LO QO NQ OC wo_class wo_start (proj1 PL) wo_assoc g1 g2 o1 o2 D1 D2 (conj F1 (ex_intro _ o1 D1)) (conj F2 (ex_intro _ o2 D2))) as IO.
  pose proof (fun R => unprecedented ds1 g1 o1 R D1 (proj1 PL)) as U1. pose proof (fun R => unprecedented ds2 g2 o2 R D2 wo_assoc) as U2. split; split.
  - apply (io_conflicting _ _ _ _ IO). apply U1.
  - apply (io_conflicting _ _ _ _ (iso_flip _ _ _ _ IO)). apply U2.
  - intros (r & Hr). exact (io_lost _ _ _ _ IO (U1 _) r Hr).
  - intros (r & Hr). exact (io_lost _ _ _ _ (iso_flip _ _ _ _ IO) (U2 _) r Hr).
Qed.

Lemma faults_back b1 : expands ds1 b1 -> forall e, fault ds2 e -> fault ds1 e.
Proof.
  intros EX e HF. assert (HC : of_rules e \/ ~ of_rules e) by (unfold of_rules; destruct e; auto; right; intros [?|[?|[?|?]]]; discriminate). destruct HC as [[->|[->|[->| ->]]]|HR].
  - destruct HF as (r & H1 & H2 & H3 & H4). apply ow_in2 in H1 as [H1|[->| ->]]; try discriminate. destruct (GramFacts.forall2_in_r _ _ _ wo_rules _ H1) as (d & Hd & HU & _). pose proof HU as (E1 & E2 & _).
    exists d. rewrite <- E2, <- (wo_raw (d_lhs d)), <- E1 by (now apply wo_o). splits; auto. now rewrite (wo_hands d r Hd HU).
  - destruct HF as (g & r & HG & HL). destruct (wo_iso (bt_grammar b1) g (expands_written _ _ EX) HG) as [_ [_ H]]. destruct H as [s Hs]; eauto. exists (bt_grammar b1), s. split; auto. now apply expands_written.
  - destruct HF as (g & HG & HL). destruct (wo_iso (bt_grammar b1) g (expands_written _ _ EX) HG) as [[_ H] _]. exists (bt_grammar b1). split; auto. now apply expands_written.
  - destruct HF as (r & e & m & ms & n & H1 & H2 & H3 & H4 & H5 & H6). rewrite wo_choices in H4. apply ow_in2 in H1 as [H1|[->| ->]]; [| |destruct H2].
    + destruct (GramFacts.forall2_in_r _ _ _ wo_rules _ H1) as (d & Hd & HU & _). pose proof HU as (E1 & E2 & HF). destruct (GramFacts.forall2_in_r _ _ _ HF _ H2) as (e1 & He1 & HE). destruct HE as [e0|a].
      * destruct (wo_chosen d e0 m ms n Hd He1 H4 H5) as [Ho Ec]. exists d, e0, m, ms, n. rewrite <- (wo_name n), <- Ec by auto. splits; auto. now apply (wo_reads d r e0 Hd HU He1).
      * exfalso. cbn in H4. apply NM. exact (proj1 (class_mentions _ _ _ H4)).
    + cbn in H2. destruct H2 as [<-|[]]. destruct OC as (a & r & Hr & He). destruct (wo_pair a r Hr He m ms n H4 H5) as [Ho Ec]. exists r, ([q], true, a), m, ms, n. rewrite <- (wo_name n), <- Ec by auto. splits; auto. right. left. eauto.
  - apply (same_faults ds2 ds1 o (fun d => exists t, d = DType 0 o t)); auto.
    + intros l1 d l2 E H1 H2. apply (wo_mid2 _ _ _ E H1). intros ->. apply H2. eauto.
    + intros l1 d l2 E [t0 ->]. pose proof (ow_others ds1 ds' q o al cs cn UW) as EO. rewrite E in EO. unfold others at 1 in EO. rewrite filter_app in EO. cbn [filter is_rule negb] in EO. fold (others l1) in EO. rewrite (ty_others o l1).
      destruct (type_of (others l1) o) as [t|] eqn:Et; auto. exfalso. destruct (Claims22.type_lists (others l1) o) as (k & t' & Hk); [congruence|]. apply NM.
      assert (HI : In (DType k o t') (others ds1)).
      { destruct (exists_last (l := DType 0 o t0 :: filter (fun d => negb (is_rule d)) l2)) as (z & y & Ez); [discriminate|]. rewrite Ez, app_assoc in EO. apply app_inj_tail in EO as [<- _]. apply in_app_iff. now left. }
      apply filter_In in HI as [HI _]. exists (DType k o t'). split; auto. now left.
    + intros d. assert (NO : (forall t, d <> DType 0 o t) -> (exists t, d = DType 0 o t) \/ ~ (exists t, d = DType 0 o t)) by (intros H; right; intros [t E]; exact (H t E)).
      destruct d as [| | | | |k m t| | | | | | | | | | | | | | ]; try (apply NO; discriminate). destruct k as [|k]; [|apply NO; discriminate]. destruct (string_dec m o) as [->|Hm]; [left; eauto|]. apply NO. intros t' E. injection E as E _. contradiction.
    + intros n. now rewrite wo_fb.
    + rewrite wo_wild. apply PL.
    + symmetry. apply wo_start.
    + rewrite wo_start. intros s Hs ->. apply NM. now apply start_mentioned.
    + intros n Hn. symmetry. now apply wo_name.
    + intros a c. rewrite wo_fb. intros H. destruct (fallback_mentions _ _ _ H). split; intros ->; contradiction.
    + intros ns b a H Ho. destruct (wo_elem2 _ _ _ H) as [H'|[[-> _]| ->]]; [eauto|exfalso; apply Ho; now left|]. destruct OC as (a' & Ha). eauto.
    + intros b a _. exists (mkDr o [([q], false, Some al)] (Some cs) None). split; auto. apply wo_some.
    + intros ns b a H L. destruct (wo_elem2 _ _ _ H) as [H'|[[-> _]| ->]]; auto; cbn in L; lia.
    + intros r Hr. apply ow_in2 in Hr as [Hr|[->| ->]]; auto. destruct (GramFacts.forall2_in_r _ _ _ wo_rules _ Hr) as (d & Hd & (E1 & _) & E2). right. exists d. splits; auto.
    + intros r Hr. destruct (GramFacts.forall2_in_l _ _ _ wo_rules _ Hr) as (d & Hd & (E1 & _) & E2). right. exists d. split; auto. now apply wo_in'.
    + intros E. pose proof wo_some as H. rewrite E in H. destruct H.
Qed.
Lemma faults_forth b2 : expands ds2 b2 -> forall e, fault ds1 e -> fault ds2 e.
Proof.
  intros EX e HF. assert (HC : of_rules e \/ ~ of_rules e) by (unfold of_rules; destruct e; auto; right; intros [?|[?|[?|?]]]; discriminate). destruct HC as [[->|[->|[->| ->]]]|HR].
  - destruct HF as (d & Hd & H2 & H3 & H4). destruct (GramFacts.forall2_in_l _ _ _ wo_rules _ Hd) as (r & Hr & HU & _). pose proof HU as (E1 & E2 & _).
    exists r. rewrite E2, E1, wo_raw by (now apply wo_o). splits; auto; [now apply wo_in'|]. now rewrite <- (wo_hands d r Hd HU).
  - destruct HF as (g & r & HG & HL). destruct (wo_iso g (bt_grammar b2) HG (expands_written _ _ EX)) as [_ [H _]]. destruct H as [s Hs]; eauto. exists (bt_grammar b2), s. split; auto. now apply expands_written.
  - destruct HF as (g & HG & HL). destruct (wo_iso g (bt_grammar b2) HG (expands_written _ _ EX)) as [[H _] _]. exists (bt_grammar b2). split; auto. now apply expands_written.
  - destruct HF as (d & e & m & ms & n & H1 & H2 & H3 & H4 & H5 & H6). destruct (wo_chosen d e m ms n H1 H2 H4 H5) as [Ho Ec].
    destruct (GramFacts.forall2_in_l _ _ _ wo_rules _ H1) as (r & Hr & HU & _). pose proof HU as (E1 & E2 & HF). destruct (GramFacts.forall2_in_l _ _ _ HF _ H2) as (e1 & He1 & HE). destruct HE as [e0|a].
    + exists r, e0, m, ms, n. rewrite wo_choices, (wo_name n), Ec by auto. splits; auto; [now apply wo_in'|]. now apply (wo_reads d r e0 H1 HU H2).
    + destruct (wo_pair a d H1 H2 m ms n H4 H5) as [_ Ec']. exists (mkDr o [([q], false, Some al)] (Some cs) None), ([q], false, Some al), m, ms, n. rewrite wo_choices, (wo_name n), Ec' by auto. splits; auto; [apply wo_some|now left|now left].
  - apply (same_faults ds1 ds2 o (fun _ => False)); auto; try (intros; contradiction).
    + intros l1 d l2 E HR' _. eapply wo_mid1; eauto.
    + exact wo_fb.
    + apply PL.
    + exact wo_start.
    + intros s Hs ->. apply NM. now apply start_mentioned.
    + exact wo_name.
    + intros a c H. destruct (fallback_mentions _ _ _ H). split; intros ->; contradiction.
    + intros ns b a H Ho. destruct (wo_elem1 _ _ _ H) as [H'| ->]; [eauto|]. exists false, (Some al). eexists. split; [apply wo_some|now left].
    + intros b a (r & Hr & He). exfalso. destruct (wo_o _ Hr) as [_ HO]. apply (HO _ He). now left.
    + intros ns b a H L. destruct (wo_elem1 _ _ _ H) as [H'| ->]; auto; cbn in L; lia.
    + intros r Hr. destruct (GramFacts.forall2_in_l _ _ _ wo_rules _ Hr) as (d & Hd & (E1 & _) & E2). right. exists d. splits; auto. now apply wo_in'.
    + intros r Hr. apply ow_in2 in Hr as [Hr|[->| ->]]; auto. destruct (GramFacts.forall2_in_r _ _ _ wo_rules _ Hr) as (d & Hd & (E1 & _) & E2). right. exists d. auto.
    + intros E. destruct OC as (a & r & Hr & _). rewrite E in Hr. destruct Hr.
Qed.

(** The list with [q?] is accepted exactly if the list with the nonterminal is. *)
Theorem optional_accepted_alike : no_self_fallback ds1 -> elems_named ds1 -> classes_begin ds1 -> flat_decls ds1 -> (exists b, expands ds1 b) <-> (exists b, expands ds2 b).
Proof.
  intros H1 H2 H3 [H4 H5].
  assert (K1 : no_self_fallback ds2).
  { intros fb ids H. apply H1. apply in_split in H as (l1 & l2 & E). destruct (wo_mid2 _ _ _ E eq_refl) as (k1 & k2 & -> & _); [discriminate|]. apply in_app_iff. right. now left. }
  assert (K2 : elems_named ds2).
  { intros lhs rhs c p toks b a H He ->. apply in_app_iff in H as [H|H].
    - destruct (GramFacts.forall2_in_r _ _ _ UW _ H) as (d & Hd & HU). inversion HU as [d0|l r r' c' p' HF]; subst; [exact (H2 _ _ _ _ _ _ _ Hd He eq_refl)|].
      destruct (GramFacts.forall2_in_r _ _ _ HF _ He) as (e & He1 & HE). inversion HE; subst. exact (H2 _ _ _ _ _ _ _ Hd He1 eq_refl).
    - cbn in H. destruct H as [H|[H|[H|[]]]]; [discriminate| |]; injection H as <- <- <- <-; cbn in He; [destruct He as [He|[]]; discriminate|destruct He]. }
  assert (K3 : classes_begin ds2) by (intros n ms; rewrite wo_class; apply H3).
  assert (K4 : flat_decls ds2).
  { split.
    - intros n ms m. rewrite !wo_class. apply H4.
    - intros d ns b a Hd He L m Hm. rewrite wo_class. destruct (wo_elem2 ns b a) as [(r & Hr & He')|[[-> _]| ->]]; [exists d; auto|eapply H5; eauto|cbn in L; lia|cbn in L; lia]. }
  split; intros [b EX].
  - apply accepted_exactly; auto. intros e HF. apply (expanded_faultless ds1 b EX e); [split; auto|]. eapply faults_back; eauto.
  - apply accepted_exactly; auto; [split; auto|]. intros e HF. apply (expanded_faultless ds2 b EX e); auto. eapply faults_forth; eauto.
Qed.
End Written.
