(** What holds of every grammar the front end hands to the back end (proved in
    FrontFacts.v), and elementary consequences. *)
From Verif Require Import Base Syntax BaseFacts FrontEnd Spec.

Definition is_knt (k : kind) : Prop := k = KNonTerm.

Record wf_grammar (g : grammar) : Prop := {
  wg_dflt_range : g_nterm g <= g_dflt g < List.length (g_syms g);
  wg_nterm_pos : 0 < g_nterm g;
  wg_term : forall i, i < List.length (g_syms g) -> (kind_at g i = Some KTerm <-> i < g_nterm g);
  wg_nonterm : forall i, kind_at g i = Some KNonTerm <-> g_nterm g <= i <= g_dflt g;
  wg_rule : forall r ru, nth_error (g_rules g) r = Some ru ->
    kind_at g (r_lhs ru) = Some KNonTerm /\ r_lhs ru <> g_dflt g /\
    forall X al, In (X, al) (r_rhs ru) ->
      X < List.length (g_syms g) /\ X <> 0 /\ X <> g_dflt g;
  wg_start : kind_at g (g_start g) = Some KNonTerm /\ g_start g <> g_dflt g;
  wg_error : kind_at g (g_error g) = Some KNonTerm /\ g_error g <> g_dflt g;
  wg_multi : forall X ms m, kind_at g X = Some (KMulti ms) -> In m ms ->
    m < List.length (g_syms g) /\ m <> 0 /\ kind_at g m <> Some KNonTerm;
  wg_fb : forall i s f, nth_error (g_syms g) i = Some s -> sy_fb s = Some f ->
    i <> 0 /\ f < List.length (g_syms g) /\ f <> 0 /\ kind_at g f <> Some KNonTerm
    /\ f_has_fb (g_fe g) = true;
  wg_wild : forall w, g_wild g = Some w ->
    w < List.length (g_syms g) /\ w <> 0 /\ kind_at g w <> Some KNonTerm }.

(** Token classes and compounds list terminals only (a class listing a class is
    accepted by the macro but mistreated, see Refutations.v). *)
Definition flat (g : grammar) : Prop :=
  forall X ms m, kind_at g X = Some (KMulti ms) -> In m ms -> is_term g m.

Lemma kind_at_gsym g i k : kind_at g i = Some k -> sy_kind (gsym g i) = k.
Proof.
  unfold kind_at, gsym. intros H. destruct (nth_error (g_syms g) i) eqn:E; [|discriminate].
  simpl in H. inversion H. erewrite nth_error_nth by eauto. reflexivity.
Qed.

Lemma gsym_kind_at g i : i < List.length (g_syms g) -> kind_at g i = Some (sy_kind (gsym g i)).
Proof.
  intros H. unfold kind_at, gsym. rewrite (nth_error_nth' _ dummy_sym H). reflexivity.
Qed.

Lemma kind_at_range g i k : kind_at g i = Some k -> i < List.length (g_syms g).
Proof.
  unfold kind_at. intros H. apply nth_error_Some. destruct (nth_error (g_syms g) i); simpl in *; congruence.
Qed.

Lemma grule_nth g r ru : nth_error (g_rules g) r = Some ru -> grule g r = ru.
Proof. apply nth_error_nth. Qed.

Lemma nth_grule g r : r < List.length (g_rules g) -> nth_error (g_rules g) r = Some (grule g r).
Proof. intros H. apply nth_error_nth', H. Qed.

Lemma in_rules_of g X r :
  In r (rules_of g X) <-> exists ru, nth_error (g_rules g) r = Some ru /\ r_lhs ru = X.
Proof.
  unfold rules_of. rewrite filter_In, in_seq. split.
  - intros [[_ H] E]. simpl in H. apply Nat.eqb_eq in E.
    exists (grule g r). split; auto. now apply nth_grule.
  - intros (ru & H & E). assert (r < List.length (g_rules g)) by (apply nth_error_Some; congruence).
    split; [simpl; lia|]. apply Nat.eqb_eq. now rewrite (grule_nth _ _ _ H).
Qed.

Lemma rules_of_nodup g X : NoDup (rules_of g X).
Proof. apply NoDup_filter, seq_NoDup. Qed.

Section Wf.
Context (g : grammar) (W : wf_grammar g).

Lemma rhs_in r ru X : nth_error (g_rules g) r = Some ru -> In X (map fst (r_rhs ru)) ->
  X < List.length (g_syms g) /\ X <> 0 /\ X <> g_dflt g.
Proof.
  intros Hr HX. apply in_map_iff in HX as ([Y al] & <- & Hin).
  destruct (wg_rule g W _ _ Hr) as (_ & _ & H). eapply H; eauto.
Qed.

Lemma lhs_range r ru : nth_error (g_rules g) r = Some ru -> r_lhs ru < List.length (g_syms g).
Proof. intros H. apply (wg_rule g W) in H as [H _]. eapply kind_at_range; eauto. Qed.

Lemma nullable_nt X : nullable g X -> kind_at g X = Some KNonTerm.
Proof. intros H. destruct H as [r ru Hr _]. now apply (wg_rule g W) in Hr as [H _]. Qed.

Lemma member_not_nt a X : member g a X -> kind_at g X <> Some KNonTerm.
Proof. intros [[-> H]|(ms & H & _)]; unfold is_term in *; congruence. Qed.

Lemma member_term a X : flat g -> member g a X -> is_term g a.
Proof. intros F [[_ H]|(ms & H & Hin)]; auto. eapply F; eauto. Qed.

Lemma is_term_lt a : is_term g a <-> a < g_nterm g.
Proof.
  unfold is_term. destruct (wg_dflt_range g W). split; intros Ha.
  - apply (wg_term g W); auto. eapply kind_at_range; eauto.
  - apply (wg_term g W); auto. lia.
Qed.

Lemma member_ne0 a X : (exists r ru, nth_error (g_rules g) r = Some ru /\ In X (map fst (r_rhs ru))) ->
  member g a X -> a <> 0.
Proof.
  intros (r & ru & Hr & HX) [[-> _]|(ms & Hk & Hin)].
  - eapply rhs_in; eauto.
  - eapply (wg_multi g W); eauto.
Qed.
End Wf.
