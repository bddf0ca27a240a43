(** Derivation trees over the declarations themselves: rules by their position in the macro
    input, tokens by name.  Specification only; nothing here comes from the generator. *)
From Verif Require Import Base Syntax FrontEnd DeclSpec.

(** A token, a rule with one subtree per element of its right-hand side, an optional element
    left out, an optional element present. *)
Inductive dtree := LTok (a : ident) | LRule (i : nat) (ts : list dtree) | LNone | LSome (t : dtree).

Section Trees.
Context (ds : list decl).

(** [tree_of n w t]: [t] is a derivation tree of the token string [w] for the name [n];
    [elem_tree] for an element of a right-hand side, [trees_of] for a whole one. *)
Inductive tree_of : ident -> list ident -> dtree -> Prop :=
| to_tok a n : stands ds a n -> tree_of n [a] (LTok a)
| to_rule i r w ts : nth_error (rules_in ds) i = Some r -> trees_of (d_rhs r) w ts -> tree_of (d_lhs r) w (LRule i ts)
with elem_tree : rhs_elem -> list ident -> dtree -> Prop :=
| et_one n al w t : tree_of n w t -> elem_tree ([n], false, al) w t
| et_none n al : elem_tree ([n], true, al) [] LNone
| et_some n al w t : tree_of n w t -> elem_tree ([n], true, al) w (LSome t)
| et_alt ns o al a : 2 <= List.length ns -> In a ns -> elem_tree (ns, o, al) [a] (LTok a)
with trees_of : list rhs_elem -> list ident -> list dtree -> Prop :=
| ts_nil : trees_of [] [] []
| ts_cons e es w1 w2 t ts : elem_tree e w1 t -> trees_of es w2 ts -> trees_of (e :: es) (w1 ++ w2) (t :: ts).
End Trees.

Scheme tree_of_mind := Minimality for tree_of Sort Prop
  with elem_tree_mind := Minimality for elem_tree Sort Prop
  with trees_of_mind := Minimality for trees_of Sort Prop.
Combined Scheme tree_of_both from tree_of_mind, elem_tree_mind, trees_of_mind.

(** A string has a tree exactly when it is produced. *)
Lemma says_has_tree ds :
  (forall n w, says ds eq n w -> exists t, tree_of ds n w t) /\ (forall e w, elem ds eq e w -> exists t, elem_tree ds e w t) /\
  (forall es w, elems ds eq es w -> exists ts, trees_of ds es w ts).
Proof.
  apply says_both.
  - intros a b n <- H. eexists. now constructor.
  - intros r w Hr _ (ts & Hts). apply In_nth_error in Hr as [i Hi]. eexists. econstructor; eauto.
  - intros n al w _ (t & Ht). eexists. now constructor; eauto.
  - intros n al. eexists. constructor.
  - intros n al w _ (t & Ht). eexists. now constructor; eauto.
  - intros ns o al a b Hl <- Hb. eexists. now constructor.
  - eexists. constructor.
  - intros e es w1 w2 _ (t & Ht) _ (ts & Hts). eexists. constructor; eauto.
Qed.
Lemma tree_says ds :
  (forall n w t, tree_of ds n w t -> says ds eq n w) /\ (forall e w t, elem_tree ds e w t -> elem ds eq e w) /\
  (forall es w ts, trees_of ds es w ts -> elems ds eq es w).
Proof. apply tree_of_both; intros; try (econstructor; eauto; fail). apply nth_error_In in H. now apply sa_rule. Qed.
Theorem tree_iff ds n w : says ds eq n w <-> exists t, tree_of ds n w t.
Proof. split; [apply says_has_tree|]. intros (t & H). eapply tree_says; eauto. Qed.
