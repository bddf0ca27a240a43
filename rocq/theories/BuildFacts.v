(** From a successful [build] to the facts about its grammar, automaton and tables. *)
From Coq Require Import Permutation.
From Verif Require Import Base Syntax BaseFacts FrontEnd First States Actions Tables Runtime
  PackFacts Spec WfGrammar FirstFacts ClosureFacts AutoFacts LalrFacts ActFacts CompFacts GroupFacts
  TabFacts LookFacts PipeFacts FrontFacts.

(** The iteration order of a HashMap is some permutation of its entries. *)
Definition hash_order (ord : list (nat * nat) -> list (nat * nat)) : Prop := forall l, Permutation (ord l) l.

(** No %fallback directive lists its own target. *)
Definition no_self_fallback (ds : list decl) : Prop := forall fb ids, In (DFallback fb ids) ds -> ~ In fb ids.

Lemma build_inv fuel ord ds b : build fuel ord ds = GOk b -> exists f, new_from_decls fuel ds = GOk f /\ ran fuel ord f b.
Proof. unfold build. intros H. apply gbind_ok in H as (f & Hf & H). exists f. split; auto. now apply build_fe_inv. Qed.

Theorem build_wf fuel ord ds b : hash_order ord -> build fuel ord ds = GOk b -> wf_grammar (bt_grammar b).
Proof.
  intros Ho H. apply build_inv in H as (f & Hf & R). destruct (rn_prep _ _ _ _ R) as (g0 & H0 & H1).
  eapply prepared_wf; eauto. eapply new_from_decls_spec; eauto.
Qed.

Lemma prepared_acyclic ord f g g1 : Decls f -> acyc f -> prepared ord f g -> g_syms g1 = g_syms g -> acyclic_fb g1.
Proof.
  intros D A Pr Eg.
  assert (Hst : forall i c, fb g1 i = Some c -> exists i0 c0, i = index_of (order f) i0 /\ c = index_of (order f) c0 /\ fbstep f i0 c0 /\ i0 < List.length (f_syms f)).
  { intros i c H. unfold fb, gsym in H. rewrite Eg in H. destruct (nth_error (g_syms g) i) as [s|] eqn:Es.
    - rewrite (nth_error_nth _ _ _ Es) in H. destruct (g_sym_inv ord f g Pr i s Es) as (i0 & s0 & -> & H0 & _ & _ & Hf & _).
      rewrite Hf in H. destruct (sy_fb s0) as [c0|] eqn:Ec; [|discriminate]. cbn in H. injection H as <-.
      exists i0, c0. splits; auto; [exists s0; auto|]. apply nth_error_Some. congruence.
    - apply nth_error_None in Es. rewrite nth_overflow in H by auto. discriminate. }
  assert (Hrange : forall i c, fbstep f i c -> c < List.length (f_syms f)).
  { intros i c (s & Hs & Hc). assert (Hi : i < List.length (f_syms f)) by (apply nth_error_Some; congruence).
    destruct (id_name f D i Hi) as (s' & Hs' & HC). assert (s' = s) by congruence. subst s'. destruct HC as [(_ & _ & _ & K)|(_ & _ & _ & HK)]; [congruence|].
    destruct (HK c Hc) as (_ & T & _). now apply (tid_kind ord f g D Pr c T). }
  intros a c Hac Hf. destruct (Hst a c Hac) as (a0 & c0 & -> & -> & S0 & La).
  enough (HG : forall x, falls_to g1 (index_of (order f) c0) x -> exists x0, x = index_of (order f) x0 /\ fbs f c0 x0 /\ x0 < List.length (f_syms f)).
  { destruct (HG _ Hf) as (x0 & E & Hx & Lx). apply index_of_inj in E; auto. subst x0. eapply A; eauto. }
  clear Hf. intros x Hx. induction Hx as [|y s z Hy IH Hs Hz].
  - exists c0. splits; auto; [constructor|]. eapply Hrange; eauto.
  - destruct IH as (y0 & -> & Hy0 & Ly). destruct (Hst (index_of (order f) y0) z) as (i0 & z0 & Ei & -> & Sz & Li).
    { unfold fb, gsym. now rewrite (nth_error_nth _ _ _ Hs). }
    apply index_of_inj in Ei; auto. subst i0. exists z0. splits; auto; [econstructor; eauto|eapply Hrange; eauto].
Qed.

(** C16 *)
Theorem build_acyclic fuel ord ds b : no_self_fallback ds -> build fuel ord ds = GOk b -> acyclic_fb (bt_grammar b).
Proof.
  intros Hs H. apply build_inv in H as (f & Hf & R). destruct (rn_prep _ _ _ _ R) as (g0 & H0 & H1).
  pose proof (new_from_decls_spec _ _ _ Hf) as D. apply prepare_spec in H0.
  apply normalize_rules_spec in H1 as (E1 & _). cbn in E1. eapply (prepared_acyclic ord f g0); eauto.
  unfold new_from_decls in Hf. apply gbind_ok in Hf as (f0 & Hd & Hf). apply decls_acyc in Hd.
  - apply gbind_ok in Hf as ([i f1] & Hn & Hf). apply symbol_new_fb in Hn. destruct (f_rules f1); [discriminate|]. injection Hf as <-. eapply fb_same_acyc; eauto.
  - intros d Hin (fb & ids & -> & Hids). eapply Hs; eauto.
Qed.

(** The hypotheses under which the generated tables are known to be right: no token class
    lists a token class, no token falls back to itself, and no two rows of the packed
    table fell on top of each other (see Refutations.v for why each is needed). *)
Record sane (ds : list decl) (b : built) : Prop := {
  sn_fb : no_self_fallback ds;
  sn_flat : flat (bt_grammar b);
  sn_rows : rows_apart b }.

Theorem build_pipe fuel ord ds b : hash_order ord -> build fuel ord ds = GOk b -> sane ds b ->
  Pipe (bt_grammar b) (bt_auto b) (bt_acts b) (bt_comp b) (bt_tables b).
Proof.
  intros Ho H [S1 S2 S3]. pose proof (build_wf _ _ _ _ Ho H) as W. pose proof (build_acyclic _ _ _ _ S1 H) as Ha.
  apply build_inv in H as (f & _ & R). eapply ran_pipe; eauto.
Qed.

Theorem build_aut fuel ord ds b : hash_order ord -> build fuel ord ds = GOk b -> Aut (bt_grammar b) (bt_auto b).
Proof.
  intros Ho H. pose proof (build_wf _ _ _ _ Ho H) as W. apply build_inv in H as (f & _ & R). eapply ran_aut; eauto.
Qed.
