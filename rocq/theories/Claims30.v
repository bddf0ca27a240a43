(** Whether a list of declarations is accepted depends on its blocks and aliases only through the three
    checks that are about them (C54). *)
From Verif Require Import Base Syntax BaseFacts FrontEnd First States Actions Tables Runtime User Spec WfGrammar FrontFacts DeclSpec DeclFacts DeclMore MeanSpec PipeFacts BuildFacts GramFacts LangFacts
  PanicFacts TypeFacts TypeDecl ActFacts FaultSpec LalrFacts FaultBack Main Claims6 Claims13 IsoFacts OrderIso Claims28 Claims29 BlockIso.
From Verif Require Claims22.
Open Scope string_scope. Open Scope nat_scope. Open Scope list_scope.

(** Two declarations that are the same, but for the block and the aliases if they are rules *)
Inductive reblocked : decl -> decl -> Prop :=
| rb_same d : is_rule d = false -> reblocked d d
| rb_rule lhs rhs rhs' c c' p : map nameless rhs' = map nameless rhs -> reblocked (DRule lhs rhs c p) (DRule lhs rhs' c' p).
(** What can be wrong with blocks and aliases: a rule of a typed nonterminal has no block and no single value to
    hand on, alternatives whose value is read have different types, the wildcard has an alias. *)
Definition about_blocks (e : gerr) : Prop := e = ETypedNoCode \/ e = ECompoundAlias \/ e = EWildAlias.

Lemma reblocked_sym d d' : reblocked d d' -> reblocked d' d.
Proof. intros [d0 H|lhs rhs rhs' c c' p H]; constructor; auto. Qed.
Lemma reblocked_all l l' : Forall2 reblocked l l' -> Forall2 reblocked l' l.
Proof. induction 1; constructor; auto using reblocked_sym. Qed.
Lemma rb_others l l' : Forall2 reblocked l l' -> others l' = others l.
Proof. induction 1 as [|d d' l l' [d0 H|lhs rhs rhs' c c' p H] HF IH]; auto; unfold others in *; cbn; rewrite ?H; cbn; now rewrite IH. Qed.
Lemma rb_rules l l' : Forall2 reblocked l l' -> Forall2 shaped (rules_in l) (rules_in l').
Proof.
  induction 1 as [|d d' l l' [d0 H|lhs rhs rhs' c c' p H] HF IH]; cbn; [constructor| |].
  - destruct d0; cbn; try exact IH. discriminate.
  - constructor; auto. constructor; auto.
Qed.

Section Side.
Context (ds1 ds2 : list decl) (RB : Forall2 reblocked ds1 ds2).
Let EO := rb_others _ _ RB.
Let SH := rb_rules _ _ RB.
Lemma rb_first {B} (f : decl -> option B) : (forall l r c p, f (DRule l r c p) = None) -> DeclSpec.first_of f ds2 = DeclSpec.first_of f ds1.
Proof. intros H. rewrite (first_others f H ds1), (first_others f H ds2). now rewrite EO. Qed.
Lemma rb_class n : class_of ds2 n = class_of ds1 n.
Proof. rewrite (class_others n ds1), (class_others n ds2). now rewrite EO. Qed.
Lemma rb_assoc n : assoc_of ds2 n = assoc_of ds1 n.
Proof. unfold assoc_of. rewrite (assoc_others n ds1), (assoc_others n ds2). now rewrite EO. Qed.
Lemma rb_wild : wildcard_of ds2 = wildcard_of ds1.
Proof. apply rb_first. reflexivity. Qed.
Lemma rb_fb n : fallback_of ds2 n = fallback_of ds1 n.
Proof. apply rb_first. reflexivity. Qed.
Lemma rb_type n : type_of ds2 n = type_of ds1 n.
Proof. apply rb_first. reflexivity. Qed.
Lemma rb_xtok : extra_token_of ds2 = extra_token_of ds1.
Proof. apply rb_first. reflexivity. Qed.
Lemma rb_dflt : default_type_of ds2 = default_type_of ds1.
Proof. apply rb_first. reflexivity. Qed.
Lemma rb_raw n : raw_type ds2 n = raw_type ds1 n.
Proof. unfold raw_type. now rewrite rb_xtok, rb_class, rb_type. Qed.
Lemma rb_start : start_of ds2 = start_of ds1.
Proof.
  unfold start_of, start_line. rewrite (rb_first _ (fun _ _ _ _ => eq_refl)). destruct (DeclSpec.first_of _ ds1); auto. destruct (rb_rules _ _ RB) as [|d d' l l' HS HF]; auto. cbn. now rewrite (sh_lhs _ _ HS).
Qed.
Lemma rb_own n : own_of ds2 n = own_of ds1 n.
Proof. unfold own_of, is_wild. now rewrite rb_raw, rb_dflt, rb_wild. Qed.
Lemma rb_name n : name_type ds2 n = name_type ds1 n.
Proof. unfold name_type, is_wild. rewrite rb_wild, rb_class, rb_dflt, rb_own. destruct (class_of ds1 n) as [[|x l]|]; auto. now rewrite rb_own. Qed.
Lemma rb_in d : In d ds2 -> is_rule d = false -> In d ds1.
Proof. intros H HR. destruct (GramFacts.forall2_in_r _ _ _ RB _ H) as (d' & Hd & HB). destruct HB; auto. discriminate. Qed.
Lemma rb_split l1 d l2 : ds2 = l1 ++ d :: l2 -> is_rule d = false -> exists k1 k2, ds1 = k1 ++ d :: k2 /\ Forall2 reblocked k1 l1.
Proof.
  intros E HR. pose proof RB as H. rewrite E in H. apply Forall2_app_inv_r in H as (k1 & k2 & F1 & F2 & E1). inversion F2 as [|d' ? k2' ? HB F3]; subst. exists k1, k2'. split; auto. destruct HB; auto. discriminate.
Qed.
Lemma rb_elem ns o al : has_elem ds2 (ns, o, al) -> exists al', has_elem ds1 (ns, o, al').
Proof.
  intros (r & Hr & He). destruct (GramFacts.forall2_in_r _ _ _ SH _ Hr) as (r1 & Hr1 & HS). destruct (shaped_has _ _ _ _ _ (shaped_sym _ _ HS) He) as (al' & He'). exists al', r1. auto.
Qed.
Lemma rb_named : elems_named ds1 -> elems_named ds2.
Proof.
  intros EN lhs rhs c p toks o al H He ->. destruct (GramFacts.forall2_in_r _ _ _ RB _ H) as (d & Hd & HB). inversion HB as [d0 HR|l r r' c1 c2 p' E]; subst; [discriminate|].
  apply (in_map nameless) in He. rewrite E in He. apply in_map_iff in He as ([[ns b] a] & Eb & He). cbn in Eb. injection Eb as -> ->. exact (EN _ _ _ _ _ _ _ Hd He eq_refl).
Qed.
Lemma rb_begin : classes_begin ds1 -> classes_begin ds2.
Proof. intros H n ms. rewrite rb_class. apply H. Qed.
Lemma rb_self : no_self_fallback ds1 -> no_self_fallback ds2.
Proof. intros H fb ids Hi. apply H. now apply rb_in. Qed.
Lemma rb_flat : flat_decls ds1 -> flat_decls ds2.
Proof.
  intros [F1 F2]. split.
  - intros n ms m. rewrite !rb_class. apply F1.
  - intros d ns o al Hd He L m Hm. rewrite rb_class. destruct (rb_elem ns o al) as (al' & r & Hr & He'); [exists d; auto|]. eapply F2; eauto.
Qed.

Theorem rb_fault e : (forall g2, written ds2 g2 -> exists S R g1, written ds1 g1 /\ iso g2 g1 S R /\ ordered g2 R) -> ~ about_blocks e -> fault ds2 e -> fault ds1 e.
Proof.
  intros HW HN HF. unfold about_blocks in HN.
  assert (TW : forall k, twice k ds2 -> twice k ds1).
  { intros k (i & j & d & d' & L & Hi & Hj & K1 & K2). exists i, j, d, d'. assert (HK : forall m x, nth_error ds2 m = Some x -> single_kind x = Some k -> nth_error ds1 m = Some x).
    { intros m x Hx Hk. destruct (forall2_nth _ _ _ (reblocked_all _ _ RB) _ _ Hx) as (y & Hy & HB). destruct HB; auto. discriminate. }
    splits; auto. }
  destruct e; cbn in HF |- *; try (now apply TW); try (exfalso; apply HN; tauto).
  - destruct HF as (k & n & t & H & HF). exists k, n, t. split; auto. now apply rb_in.
  - destruct HF as (n & H1 & H2 & HF). exists n. splits; auto. destruct HF as [(k & t & H)|(b & a & H)].
    + left. exists k, t. now apply rb_in.
    + right. apply rb_elem in H as [al' H]. eauto.
  - destruct HF as (l1 & k & n & t & l2 & E & HF). destruct (rb_split _ _ _ E eq_refl) as (k1 & k2 & E0 & F0). exists k1, k, n, t, k2. split; auto. rewrite (ty_others n k1), <- (rb_others _ _ F0), <- (ty_others n l1). exact HF.
  - destruct HF as (a & ids & n & H & HF). exists a, ids, n. split; auto. now apply rb_in.
  - destruct HF as (l1 & a & ids & l2 & E & HF). destruct (rb_split _ _ _ E eq_refl) as (k1 & k2 & E0 & F0). exists k1, a, ids, k2. split; auto. destruct HF as [HF|(n & Hn & HF)]; auto.
    right. exists n. split; auto. unfold assoc_of in *. rewrite (assoc_others n k1), <- (rb_others _ _ F0), <- (assoc_others n l1). exact HF.
  - destruct HF as (n & H & HF). exists n. split; auto. now apply rb_in.
  - destruct HF as (fb & ids & n & H & HF). exists fb, ids, n. split; auto. now apply rb_in.
  - destruct HF as (fb & ids & H & HF). exists fb, ids. split; auto. now apply rb_in.
  - destruct HF as (l1 & fb & ids & l2 & c & n & E & H1 & H2 & Hn). destruct (rb_split _ _ _ E eq_refl) as (k1 & k2 & E0 & F0). pose proof (eq_sym (rb_others _ _ F0)) as EK. exists k1, fb, ids, k2, c, n. splits; auto; [now rewrite (fb_same k1 l1)|eapply falls_same; eauto].
  - destruct HF as (l1 & fb & ids & l2 & E & HF). destruct (rb_split _ _ _ E eq_refl) as (k1 & k2 & E0 & F0). pose proof (eq_sym (rb_others _ _ F0)) as EK. exists k1, fb, ids, k2. split; auto. destruct HF as [HF|(n & Hn & HF)]; auto.
    right. exists n. split; auto. now rewrite (fb_same k1 l1).
  - destruct HF as (n & H & HF). exists n. split; auto. now apply rb_in.
  - destruct HF as (n & ids & H & HF). exists n, ids. split; auto. now apply rb_in.
  - destruct HF as (c & ids & n & H & HF). exists c, ids, n. split; auto. now apply rb_in.
  - destruct HF as (l1 & n & t & l2 & m & u & E & HF). destruct (rb_split _ _ _ E eq_refl) as (k1 & k2 & E0 & F0). exists k1, n, t, k2, m, u. split; auto. destruct (GramFacts.forall2_in_r _ _ _ F0 _ HF) as (d & Hd & HB). inversion HB; subst. exact Hd.
  - destruct HF as (r & H & HF). destruct (GramFacts.forall2_in_r _ _ _ SH _ H) as (r1 & Hr1 & HS). exists r1. split; auto. now rewrite <- (sh_lhs _ _ HS).
  - destruct HF as (ns & b & a & n & H & L & HF). destruct (rb_elem _ _ _ H) as [a' H']. exists ns, b, a', n. splits; auto; apply HF.
  - destruct HF as (r & n & H & HP & HF). destruct (GramFacts.forall2_in_r _ _ _ SH _ H) as (r1 & Hr1 & HS). exists r1, n. splits; auto. now rewrite <- (sh_prec _ _ HS).
  - destruct (rb_rules _ _ RB); auto. discriminate.
  - destruct HF as (n & b & a & H & HF). destruct (rb_elem _ _ _ HF) as [a' H']. exists n, b, a'. split; auto. now rewrite <- rb_start.
  - destruct HF as (n & b & a & H1 & H2 & H3 & H4). destruct (rb_elem _ _ _ H1) as [a' H']. exists n, b, a'. splits; auto. intros r Hr E. destruct (GramFacts.forall2_in_l _ _ _ SH _ Hr) as (r2 & Hr2 & HS). apply (H4 _ Hr2). now rewrite (sh_lhs _ _ HS).
  - destruct HF as (g & r & Hg & Hr). destruct (HW g Hg) as (S & R & g1 & H1 & IO & OR). destruct (io_lost g g1 S R IO OR r Hr) as (q & Hq). exists g1, q. auto.
  - destruct HF as (g & Hg & HC). destruct (HW g Hg) as (S & R & g1 & H1 & IO & OR). exists g1. split; auto. exact (io_conflicting g g1 S R IO OR HC).
  - destruct HF as (w & H1 & H2). exists w. now rewrite <- rb_wild, <- rb_raw.
  - destruct HF as (n & gs & H & HF). exists n, gs. split; auto. now apply rb_in.
  - destruct HF as (n & gs & H & HF). exists n, gs. split; auto. now apply rb_in.
  - destruct HF as (n & gs & m & hs & x & H1 & H2 & H3 & H4). exists n, gs, m, hs, x. splits; auto; now apply rb_in.
  - destruct HF as (a & c & H1 & H2). exists a, c. now rewrite <- rb_fb, <- !rb_name.
Qed.
End Side.

Section Accept.
Context (ds1 ds2 : list decl) (RB : Forall2 reblocked ds1 ds2) (b1 : built) (EX : expands ds1 b1) (NS : no_self_fallback ds1) (EN : elems_named ds1) (CB : classes_begin ds1) (FD : flat_decls ds1).
Theorem blocks_faults e : fault ds2 e -> about_blocks e.
Proof.
  intros HF. assert (HD : about_blocks e \/ ~ about_blocks e) by (unfold about_blocks; destruct e; (right; intros [H|[H|H]]; discriminate) || (left; tauto)). destruct HD as [HD|HD]; auto. exfalso.
  apply (expanded_faultless ds1 b1 EX e); auto. apply (rb_fault ds1 ds2 RB e); auto. intros g2 WR2. pose proof (expands_written _ _ EX) as WR1.
  destruct (blocks_iso ds2 ds1 g2 (bt_grammar b1) WR2 WR1) as (S & R & H1 & H2).
  - apply rb_rules, reblocked_all, RB.
  - intros m. now rewrite (rb_class ds1 ds2 RB).
  - intros m. now rewrite (rb_assoc ds1 ds2 RB).
  - now rewrite (rb_start ds1 ds2 RB).
  - intros m q. rewrite (rb_assoc ds1 ds2 RB). apply (ex_assoc ds1 b1 EX).
  - exists S, R, (bt_grammar b1). auto.
Qed.
Theorem blocks_accepted : (exists b2, expands ds2 b2) <-> ~ fault ds2 ETypedNoCode /\ ~ fault ds2 ECompoundAlias /\ ~ fault ds2 EWildAlias.
Proof.
  rewrite (accepted_exactly ds2 (rb_self _ _ RB NS) (rb_named _ _ RB EN) (rb_begin _ _ RB CB) (rb_flat _ _ RB FD)). split; auto. intros (H1 & H2 & H3) e HF. destruct (blocks_faults e HF) as [->|[-> | ->]]; auto.
Qed.
Theorem blocks_refused fuel ord e : hash_order ord -> build fuel ord ds2 = GErr e -> about_blocks e.
Proof.
  intros HO HB. apply blocks_faults. apply (rejected_for_a_reason fuel ord ds2 e HO); auto. intros _. exact (rb_flat _ _ RB FD).
Qed.
End Accept.
