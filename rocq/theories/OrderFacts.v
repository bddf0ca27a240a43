(** Reordered declarations say the same (C46). *)
From Coq Require Import Permutation.
From Verif Require Import Base Syntax BaseFacts FrontEnd First States Actions Tables Runtime User BuildFacts DeclSpec DeclMore GramFacts LangFacts TypeDecl TypeFacts MeanSpec Main Claims5 OrderSpec.

(** ** Pairs *)
Lemma fop_perm {A} (R : A -> A -> Prop) : (forall a b, R a b -> R b a) -> forall l l', Permutation l l' -> ForallOrdPairs R l -> ForallOrdPairs R l'.
Proof.
  intros HS. induction 1 as [|a l l' HP IH|a b l|l l' l'' H1 IH1 H2 IH2]; intros HF; auto.
  - inversion HF as [|? ? H1 H2]; subst. constructor; auto. rewrite Forall_forall in *. intros x Hx. apply H1. now apply (Permutation_in _ (Permutation_sym HP)).
  - inversion HF as [|? ? H1 H2]; subst. inversion H1 as [|? ? Hab H3]; subst. inversion H2 as [|? ? H4 H5]; subst. constructor; [constructor; auto|constructor; auto].
Qed.
Lemma fop_impl {A} (R S : A -> A -> Prop) l : (forall a b, In a l -> In b l -> R a b -> S a b) -> ForallOrdPairs R l -> ForallOrdPairs S l.
Proof.
  intros HI HF. induction HF as [|a l H1 H2 IH]; constructor.
  - rewrite Forall_forall in *. intros b Hb. apply HI; cbn; auto.
  - apply IH. intros x y Hx Hy. apply HI; cbn; auto.
Qed.
Lemma fop_split {A} (R : A -> A -> Prop) l : ForallOrdPairs R l <-> forall l1 a l2 b, l = l1 ++ a :: l2 -> In b l2 -> R a b.
Proof.
  split.
  - intros HF. induction HF as [|a l H1 H2 IH]; intros l1 x l2 y E Hy; [destruct l1; discriminate|]. destruct l1 as [|z l1]; injection E as -> ->; [|eauto]. rewrite Forall_forall in H1. auto.
  - induction l as [|a l IH]; intros H; constructor.
    + apply Forall_forall. intros b Hb. now apply (H [] a l b).
    + apply IH. intros l1 x l2 y E Hy. apply (H (a :: l1) x l2 y); auto. now rewrite E.
Qed.
Lemma fop_nth {A} (R : A -> A -> Prop) l : (forall i j a b, i < j -> nth_error l i = Some a -> nth_error l j = Some b -> R a b) -> ForallOrdPairs R l.
Proof.
  intros H. apply fop_split. intros l1 a l2 b E Hb. apply In_nth_error in Hb as [k Hk]. apply (H (List.length l1) (List.length l1 + S k)); [lia| |]; rewrite E.
  - rewrite nth_error_app2, Nat.sub_diag by lia. reflexivity.
  - rewrite nth_error_app2 by lia. now replace (List.length l1 + S k - List.length l1) with (S k) by lia.
Qed.
Lemma rivals_sym d e : ~ rivals d e -> ~ rivals e d.
Proof. destruct d, e; cbn; intuition congruence. Qed.

(** ** Readings *)
Lemma first_of_perm {A B} (f : A -> option B) l l' : Permutation l l' -> ForallOrdPairs (fun a b => f a = None \/ f b = None) l -> DeclSpec.first_of f l = DeclSpec.first_of f l'.
Proof.
  induction 1 as [|a l l' HP IH|a b l|l l' l'' H1 IH1 H2 IH2]; intros HF; auto.
  - inversion HF; subst. cbn. now rewrite IH.
  - inversion HF as [|? ? H1 H2]; subst. inversion H1 as [|? ? Hab H3]; subst. cbn. destruct (f a), (f b); auto. destruct Hab; discriminate.
  - rewrite IH1 by auto. apply IH2. eapply fop_perm; eauto. cbn. tauto.
Qed.
Lemma class_first ds n : ForallOrdPairs (fun a b => class_line n a = None \/ class_line n b = None) ds -> class_of ds n = DeclSpec.first_of (class_line n) ds.
Proof.
  induction 1 as [|d ds H1 H2 IH]; auto. cbn. destruct (class_line n d) as [l|] eqn:E; auto.
  assert (HN : class_of ds n = None); [|now rewrite HN]. clear H2 IH. induction ds as [|e ds IH]; auto. inversion H1 as [|? ? H3 H4]; subst. destruct H3 as [H3|H3]; [congruence|]. cbn. rewrite H3. auto.
Qed.
Lemma assoc_filter n : forall ds k, assoc_from k ds n = assoc_from k (filter is_prec_line ds) n.
Proof. induction ds as [|d ds IH]; intros k; auto. destruct d; cbn; auto. destruct (listed n ids); auto. Qed.
Lemma rules_perm ds ds' : Permutation ds ds' -> Permutation (rules_in ds) (rules_in ds').
Proof.
  induction 1 as [|d l l' HP IH|d e l|l l' l'' H1 IH1 H2 IH2]; auto.
  - destruct d; cbn; auto.
  - destruct d, e; cbn; auto. constructor.
  - now rewrite IH1.
Qed.
Lemma perm_all {A} (P : A -> Prop) l l' : Permutation l l' -> (forall a, In a l -> P a) -> forall a, In a l' -> P a.
Proof. intros HP H a Ha. apply H. now apply (Permutation_in _ (Permutation_sym HP)). Qed.

Section Say.
Context (ds1 ds2 : list decl) (b : built) (EX : expands ds1 b) (RA : rearranged ds1 ds2) (NR : no_rivals ds1).
Let HP := ra_perm _ _ RA.

Lemma no_rivals' : no_rivals ds2.
Proof. eapply fop_perm; eauto. apply rivals_sym. Qed.
Lemma one_kind k : ForallOrdPairs (fun d e => single_kind d <> Some k \/ single_kind e <> Some k) ds1.
Proof.
  destruct (nothing_twice ds1 b EX) as (HT & _). apply fop_nth. intros i j d e L Hi Hj. destruct (single_kind d) as [x|] eqn:Ed; [|left; discriminate]. destruct (single_kind e) as [y|] eqn:Ee; [|right; discriminate].
  destruct (Nat.eq_dec x k) as [->|]; [|left; congruence]. destruct (Nat.eq_dec y k) as [->|]; [|right; congruence]. specialize (HT k i j d e Hi Hj Ed Ee). lia.
Qed.
Lemma one_kind_reads {B} (f : decl -> option B) k : (forall d, f d <> None -> single_kind d = Some k) -> DeclSpec.first_of f ds1 = DeclSpec.first_of f ds2.
Proof.
  intros H. apply first_of_perm; auto. apply (fop_impl _ _ _) with (2 := one_kind k). intros d e _ _ [HN|HN]; [left|right].
  - destruct (f d) eqn:E; auto. exfalso. apply HN, H. congruence.
  - destruct (f e) eqn:E; auto. exfalso. apply HN, H. congruence.
Qed.
Lemma fallback_lines : ForallOrdPairs (fun d e => forall fb ids fb' ids', d = DFallback fb ids -> e = DFallback fb' ids' -> forall n, In n ids -> ~ In n ids') ds1.
Proof.
  destruct (nothing_twice ds1 b EX) as (_ & _ & _ & HF). apply fop_split. intros l1 d l2 e E He fb ids fb' ids' -> -> n Hn Hn'. apply in_split in He as (l3 & l4 & ->).
  destruct (HF (l1 ++ DFallback fb ids :: l3) l4 fb' ids') as [_ HX]; [rewrite E, <- app_assoc; reflexivity|]. specialize (HX n Hn').
  revert HX. clear -Hn. induction l1 as [|d l1 IH]; cbn.
  - destruct (listed n ids) eqn:El; [discriminate|]. unfold listed in El. exfalso. assert (existsb (String.eqb n) ids = true) by (apply existsb_exists; exists n; split; auto; apply String.eqb_refl). congruence.
  - destruct d; auto. destruct (listed n ids0); auto. discriminate.
Qed.
Theorem rearranged_same : same_words ds1 ds2.
Proof.
  constructor.
  - now apply rules_perm.
  - intros n. unfold assoc_of. rewrite (assoc_filter n ds1), (assoc_filter n ds2). now rewrite (ra_prec _ _ RA).
  - intros n. apply first_of_perm; auto. apply (fop_impl _ _ _) with (2 := NR). intros d e _ _ HN. destruct d; auto. destruct t; auto. destruct e; auto. destruct t0; auto. cbn in HN.
    destruct (String.eqb_spec n id) as [->|]; auto. destruct (String.eqb_spec id id0) as [->|]; auto. tauto.
  - intros n. apply first_of_perm; auto. apply (fop_impl _ _ _) with (2 := fallback_lines). intros d e _ _ HN. destruct d; auto. destruct e; auto. specialize (HN _ _ _ _ eq_refl eq_refl n).
    destruct (listed n ids) eqn:E1; auto. destruct (listed n ids0) eqn:E2; auto. unfold listed in *. apply existsb_exists in E1 as (x & Hx & Ex). apply existsb_exists in E2 as (y & Hy & Ey).
    apply String.eqb_eq in Ex as <-. apply String.eqb_eq in Ey as <-. now apply HN in Hx.
  - intros n. assert (HC : ForallOrdPairs (fun a b0 => class_line n a = None \/ class_line n b0 = None) ds1).
    { apply (fop_impl _ _ _) with (2 := NR). intros d e _ _ HN. destruct d; auto. destruct e; auto. cbn in *. destruct (String.eqb_spec n tk) as [->|]; auto. destruct (String.eqb_spec tk tk0) as [->|]; auto. tauto. }
    rewrite !class_first; auto; [now apply first_of_perm|]. eapply fop_perm; eauto. cbn. tauto.
  - apply (one_kind_reads _ 7). intros [] H; try contradiction; auto.
  - apply (ra_start _ _ RA).
  - apply (one_kind_reads _ 3). intros [] H; try contradiction; auto.
  - apply (one_kind_reads _ 10). intros [] H; try contradiction; auto.
Qed.
End Say.

(** ** The same words mean the same. *)
Lemma sw_sym ds1 ds2 : same_words ds1 ds2 -> same_words ds2 ds1.
Proof. intros []. constructor; auto. now apply Permutation_sym. Qed.
Section Words.
Context (ds1 ds2 : list decl) (SW : same_words ds1 ds2).
Lemma sw_raw n : raw_type ds1 n = raw_type ds2 n.
Proof. unfold raw_type. now rewrite (sw_extra _ _ SW), (sw_class _ _ SW), !(sw_type _ _ SW). Qed.
Lemma sw_iswild n : is_wild ds1 n = is_wild ds2 n.
Proof. unfold is_wild. now rewrite (sw_wild _ _ SW). Qed.
Lemma sw_own n : own_of ds1 n = own_of ds2 n.
Proof. unfold own_of. now rewrite sw_iswild, sw_raw, (sw_dflt _ _ SW). Qed.
Lemma sw_name n : name_type ds1 n = name_type ds2 n.
Proof. unfold name_type. rewrite sw_iswild, (sw_class _ _ SW), (sw_dflt _ _ SW), sw_own. destruct (class_of ds2 n) as [[|c ms]|]; now rewrite ?sw_own. Qed.
Lemma sw_rule r : In r (rules_in ds1) -> In r (rules_in ds2).
Proof. apply Permutation_in, SW. Qed.
Lemma sw_elem e : elem_type ds1 e = elem_type ds2 e.
Proof. destruct e as [[[|n [|m ns]] o] al]; cbn; auto. now rewrite sw_raw. Qed.
Lemma sw_falls a c : falls ds1 a c -> falls ds2 a c.
Proof. induction 1; [constructor|]. econstructor; eauto. now rewrite <- (sw_fb _ _ SW). Qed.
Lemma sw_taken a c : taken ds1 a c -> taken ds2 a c.
Proof. intros [H|H]; [left; now apply sw_falls|right; now rewrite <- (sw_wild _ _ SW)]. Qed.
Lemma sw_stands a n : stands ds1 a n -> stands ds2 a n.
Proof. intros [H1 H2]. split; auto. now rewrite <- (sw_class _ _ SW). Qed.
Lemma chosen_ext {V} (p q : rhs_elem -> bool) es (vs : list V) : (forall e, p e = q e) -> chosen p es vs = chosen q es vs.
Proof. intros H. unfold chosen. f_equal. apply filter_ext. intros [e v]. apply H. Qed.
Lemma sw_result {V X E} (sm : sem V X E) d vs x : result ds1 sm d vs x = result ds2 sm d vs x.
Proof. unfold result. rewrite (sw_type _ _ SW). now rewrite (chosen_ext (fun e => opt_is_some (elem_type ds1 e)) (fun e => opt_is_some (elem_type ds2 e)) _ vs (fun e => f_equal opt_is_some (sw_elem e))). Qed.
Lemma sw_means {V X E} (sm : sem V X E) (tk : ident -> ident -> Prop) n w x x' v : means ds1 sm tk n w x x' v -> means ds2 sm tk n w x x' v.
Proof.
  revert n w x x' v. apply (means_mind ds1 V X E sm tk (fun n w x x' v => means ds2 sm tk n w x x' v) (fun e w x x' v => means_elem ds2 sm tk e w x x' v) (fun es w x x' vs => means_all ds2 sm tk es w x x' vs)).
  - intros a v c n x H1 H2. eapply me_tok; eauto. now apply sw_stands.
  - intros d w vs v x x1 x2 H1 _ IH H3. eapply me_rule; eauto; [now apply sw_rule|]. now rewrite <- sw_result.
  - intros. now apply me_one.
  - intros. apply me_none.
  - intros. now apply me_some.
  - intros. eapply me_alt; eauto.
  - intros. apply me_nil.
  - intros. eapply me_cons; eauto.
Qed.
Lemma sw_says (tk : ident -> ident -> Prop) n w : says ds1 tk n w -> says ds2 tk n w.
Proof.
  revert n w. apply (says_mind ds1 tk (fun n w => says ds2 tk n w) (fun e w => elem ds2 tk e w) (fun es w => elems ds2 tk es w)).
  - intros a c n H1 H2. eapply sa_tok; eauto. now apply sw_stands.
  - intros d w H1 _ IH. eapply sa_rule; eauto. now apply sw_rule.
  - intros. now apply el_one.
  - intros. apply el_none.
  - intros. now apply el_some.
  - intros. eapply el_alt; eauto.
  - constructor.
  - intros. now constructor.
Qed.
End Words.
