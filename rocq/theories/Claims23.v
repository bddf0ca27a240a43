(** Extending a grammar (C48). *)
From Verif Require Import Base Syntax BaseFacts FrontEnd First States Actions Tables Runtime User Spec WfGrammar BuildFacts DeclSpec DeclMore MeanSpec GramFacts LangFacts TypeFacts MeanFacts TypeDecl Main Claims Claims6.
Open Scope string_scope. Open Scope nat_scope. Open Scope list_scope.

(** Declarations that may be added to [ds]: any rules and fallbacks, members for a class of [ds],
    types and classes for new names. *)
Definition addable (ds : list decl) (d : decl) : Prop :=
  match d with
  | DRule _ _ _ _ | DFallback _ _ => True
  | DTokenClass n _ => ~ mentions ds n \/ class_of ds n <> None
  | DType _ n _ => ~ mentions ds n
  | _ => False
  end.
(** [grown ds l l']: [l'] is [l] with declarations added anywhere. *)
Inductive grown (ds : list decl) : list decl -> list decl -> Prop :=
| gr_nil : grown ds [] []
| gr_keep d l l' : grown ds l l' -> grown ds (d :: l) (d :: l')
| gr_add d l l' : addable ds d -> grown ds l l' -> grown ds l (d :: l').

Section Grow.
Context (ds1 ds2 : list decl) (GR : grown ds1 ds1 ds2).

Lemma grown_rules l l' : grown ds1 l l' -> incl (rules_in l) (rules_in l').
Proof. induction 1 as [|d l l' _ IH|d l l' _ _ IH]; intros r H; auto; destruct d; cbn in *; auto. destruct H; auto. Qed.
Lemma grown_first {B} (f : decl -> option B) : (forall d, addable ds1 d -> f d = None) -> forall l l', grown ds1 l l' -> first_of f l' = first_of f l.
Proof. intros Hf l l' H. induction H as [|d l l' _ IH|d l l' HA _ IH]; cbn; auto; [now rewrite IH|]. now rewrite Hf. Qed.
Lemma grown_type n : mentions ds1 n -> type_of ds2 n = type_of ds1 n.
Proof.
  intros Hn. apply grown_first; auto. intros d HA. destruct d as [| | | | |k m t| | | | | | | | | | | | | | ]; try contradiction; auto. destruct t; auto. cbn in HA.
  destruct (String.eqb_spec n m) as [->|]; auto. contradiction.
Qed.
Lemma grown_class n : mentions ds1 n -> match class_of ds1 n with Some ms => exists ms', class_of ds2 n = Some ms' /\ incl ms ms' | None => class_of ds2 n = None end.
Proof.
  intros Hn. assert (HX : forall l l', grown ds1 l l' -> (class_of ds1 n = None -> class_of l n = None -> class_of l' n = None) /\ forall ms, class_of l n = Some ms -> exists ms', class_of l' n = Some ms' /\ incl ms ms').
  { induction 1 as [|d l l' _ [I1 I2]|d l l' HA _ [I1 I2]]; cbn [class_of].
    - split; auto. discriminate.
    - destruct (class_line n d) as [k|] eqn:E; [|split; auto]. split; [destruct (class_of l n); discriminate|]. intros ms H. destruct (class_of l n) as [ms0|] eqn:El.
      + destruct (I2 _ eq_refl) as (ms' & -> & Hi). injection H as <-. exists (k ++ ms'). split; auto. apply incl_app; [apply incl_appl, incl_refl|now apply incl_appr].
      + injection H as <-. destruct (class_of l' n) as [ms'|]; [exists (k ++ ms')|exists k]; split; auto; [apply incl_appl|]; apply incl_refl.
    - destruct (class_line n d) as [k|] eqn:E; [|split; auto]. destruct d as [| | | | | | | | | | | | |m ids| | | | | | ]; try discriminate. cbn in E, HA. destruct (String.eqb_spec n m) as [<-|]; [|discriminate]. injection E as <-. split.
      + intros H0. destruct HA as [HA|HA]; contradiction.
      + intros ms H. destruct (I2 _ H) as (ms' & -> & Hi). exists (ids ++ ms'). split; auto. now apply incl_appr. }
  destruct (HX _ _ GR) as [H1 H2]. destruct (class_of ds1 n); auto.
Qed.
Lemma grown_raw n : mentions ds1 n -> raw_type ds2 n = raw_type ds1 n.
Proof.
  intros Hn. unfold raw_type. rewrite (grown_type n Hn). assert (EE : extra_token_of ds2 = extra_token_of ds1) by (apply grown_first; auto; intros d; destruct d; cbn; tauto). rewrite EE.
  pose proof (grown_class n Hn) as HC. destruct (class_of ds1 n); [destruct HC as (ms' & -> & _); reflexivity|now rewrite HC].
Qed.
Lemma rule_mentions d : In d (rules_in ds1) -> mentions ds1 (d_lhs d) /\ forall e n, In e (d_rhs d) -> In n (fst (fst e)) -> mentions ds1 n.
Proof.
  intros H. assert (HX : exists l r c p, In (DRule l r c p) ds1 /\ d = mkDr l r c p).
  { clear GR. induction ds1 as [|x l IH]; [destruct H|]. cbn in H. destruct x; try (destruct (IH H) as (a0 & r0 & c0 & p0 & H1 & H2); exists a0, r0, c0, p0; split; auto; now right).
     destruct H as [<-|H]; [eexists _, _, _, _; split; [now left|reflexivity]|]. destruct (IH H) as (a & r & c & p & H1 & H2). exists a, r, c, p. split; auto. now right. }
  destruct HX as (l & r & c & p & Hd & ->). cbn. split; [exists (DRule l r c p); split; auto; now left|].
  intros [[ns o] al] n He Hn. exists (DRule l r c p). split; auto. right. apply in_app_iff. left. apply in_flat_map. exists (ns, o, al). auto.
Qed.

Lemma grown_means {V X E} (sm : sem V X E) : forall n w x x' v, means ds1 sm eq n w x x' v -> mentions ds1 n -> means ds2 sm eq n w x x' v.
Proof.
  apply (means_mind ds1 V X E sm eq (fun n w x x' v => mentions ds1 n -> means ds2 sm eq n w x x' v)
    (fun e w x x' v => (forall n, In n (fst (fst e)) -> mentions ds1 n) -> means_elem ds2 sm eq e w x x' v)
    (fun es w x x' vs => (forall e n, In e es -> In n (fst (fst e)) -> mentions ds1 n) -> means_all ds2 sm eq es w x x' vs)).
  - intros a v b n x <- [H1 H2] Hn. apply (me_tok ds2 sm eq a v a n x); auto. split; auto. pose proof (grown_class n Hn) as HC. destruct (class_of ds1 n); [destruct HC as (ms' & -> & Hi); auto|now rewrite HC].
  - intros d w vs v x x1 x2 Hd _ IH HR _. destruct (rule_mentions d Hd) as [HL HE]. apply (me_rule ds2 sm eq d w vs v x x1 x2); auto.
    + now apply (grown_rules _ _ GR).
    + rewrite <- HR. unfold result. destruct (d_code d); auto. rewrite (grown_type _ HL). destruct (type_of ds1 (d_lhs d)); auto.
      assert (EC : chosen (fun e => opt_is_some (elem_type ds2 e)) (d_rhs d) vs = chosen (fun e => opt_is_some (elem_type ds1 e)) (d_rhs d) vs).
      { unfold chosen. f_equal. apply filter_ext_in. intros [e u] Hin. apply in_combine_l in Hin. cbn. f_equal. destruct e as [[ns o] al]. unfold elem_type. destruct ns as [|m [|]]; auto. rewrite (grown_raw m); auto. apply (HE _ m Hin). now left. }
      now rewrite EC.
  - intros n al w x x' v _ IH H. constructor. apply IH, H. now left.
  - intros. constructor.
  - intros n al w x x' v _ IH H. constructor. apply IH, H. now left.
  - intros ns o al a v b x L <- Hin H. apply (me_alt ds2 sm eq ns o al a v a x); auto.
  - intros. constructor.
  - intros e es w1 w2 x x1 x2 v vs _ IH1 _ IH2 H. econstructor; [apply IH1|apply IH2]; eauto using in_eq, in_cons.
Qed.
End Grow.

(** What the smaller grammar accepts the larger one accepts, with the same block calls and the same
    result. *)
Theorem extension_keeps ds1 ds2 b1 b2 {V X E} (sm : sem V X E) : grown ds1 ds1 ds2 -> expands ds1 b1 -> usable ds1 b1 -> expands ds2 b2 -> usable ds2 b2 ->
  no_fallback ds1 -> plain ds2 -> types_ok ds2 -> start_of ds1 = start_of ds2 ->
  forall ks1 ks2, tokens_wf b1 ks1 -> tokens_wf b2 ks2 -> reading b1 sm ks1 = reading b2 sm ks2 ->
  forall x r x', answers b1 sm x ks1 r x' -> answers_or_overflows b2 sm x ks2 r x'.
Proof.
  intros GR E1 U1 E2 U2 NF P2 TO HS.
  assert (HW : wildcard_of ds2 = wildcard_of ds1) by (apply (grown_first ds1); auto; intros d; destruct d; cbn; tauto).
  assert (HD : default_type_of ds2 = default_type_of ds1) by (apply (grown_first ds1); auto; intros d; destruct d; cbn; tauto).
  assert (HM : forall s, start_of ds1 = Some s -> mentions ds1 s).
  { intros s. unfold start_of. destruct (start_line ds1) as [n|] eqn:El.
    - intros H. injection H as <-. unfold start_line in El. clear -El. induction ds1 as [|d l IH]; [discriminate|]. cbn in El. destruct d; try (destruct (IH El) as (d' & H1 & H2); exists d'; split; auto; now right). injection El as <-. exists (DStartSymbol id). split; now left.
    - destruct (rules_in ds1) as [|d l] eqn:Er; [discriminate|]. intros H. injection H as <-. apply rule_mentions. rewrite Er. now left. }
  apply (same_meaning ds1 ds2); auto.
  - destruct P2 as [P2 P3]. split; [|congruence]. intros n. clear -GR P2. assert (HX : forall l l', grown ds1 l l' -> forall k, assoc_from k l' n = assoc_from k l n).
    { induction 1 as [|d l l' _ IH|d l l' HA _ IH]; intros k; cbn; auto; destruct d; auto; try contradiction. now rewrite IH. } unfold assoc_of. rewrite <- (HX _ _ GR). apply P2.
  - intros s Hs. pose proof (HM s Hs) as Hm. destruct (ex_decl ds1 b1 E1) as (opts & DE). destruct (de_start _ _ _ DE) as (s' & Hs' & As & Low). assert (s' = s) by congruence. subst s'.
    destruct (sym_decl _ _ _ DE _ _ As ltac:(intros ->; discriminate)) as (_ & _ & EC). rewrite (kind_at_gsym _ _ _ (lower_kind ds1 _ opts DE _ _ As Low)) in EC. cbn in EC.
    pose proof (grown_class ds1 ds2 GR s Hm) as HC. rewrite <- EC in HC. unfold name_type, own_of, is_wild. now rewrite HW, HD, <- EC, HC, (grown_raw ds1 ds2 GR s Hm).
  - intros s w x x' v Hs Hm. apply (grown_means ds1 ds2 GR sm); auto.
Qed.
