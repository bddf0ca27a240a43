(** Cycles of the built grammar are cycles of the declarations. *)
From Verif Require Import Base Syntax BaseFacts FrontEnd First States Actions Tables Runtime Spec WfGrammar FrontFacts DeclSpec DeclFacts
  PipeFacts BuildFacts GramFacts AbsFacts CleanFacts RefFacts LangFacts AutoFacts ActFacts LimitFacts CycleSpec.
Open Scope string_scope. Open Scope nat_scope. Open Scope list_scope.

Section Cycle.
Context (ds : list decl) (g : grammar) (opts : list (nat * nat)) (DE : declared ds g opts) (W : wf_grammar g).

(** The name a symbol stands for: its own, or the [X] of an optional [X?] *)
Definition vname (X : nat) (n : ident) : Prop := (at_name g X n /\ (upper n \/ lower n)) \/ exists Y, In (Y, X) opts /\ at_name g Y n.

Lemma at_fun X n m : at_name g X n -> at_name g X m -> n = m.
Proof. intros H1 H2. apply at_gname in H1, H2. congruence. Qed.
Lemma opt_named X Y : In (Y, X) opts -> exists k, at_name g X (optional_name k).
Proof. intros H. now destruct (de_opts _ _ _ DE _ _ H) as (_ & k & Hk); eauto. Qed.
Lemma not_both X Y n : In (Y, X) opts -> at_name g X n -> upper n \/ lower n -> False.
Proof. intros HY Hn Hid. destruct (opt_named _ _ HY) as (k & Hk). apply (opt_not_id k n Hid). eapply at_fun; eauto. Qed.
Lemma vname_fun X n m : vname X n -> vname X m -> n = m.
Proof.
  intros [[H1 I1]|(Y & HY & H1)] [[H2 I2]|(Y' & HY' & H2)].
  - eapply at_fun; eauto.
  - exfalso. eapply not_both; eauto.
  - exfalso. eapply not_both; eauto.
  - assert (Y = Y') by (eapply opt_uniq; eauto). subst. eapply at_fun; eauto.
Qed.
Lemma lhs_vname r ru : nth_error (g_rules g) r = Some ru -> exists n, vname (r_lhs ru) n.
Proof.
  intros Hr. destruct (rule_cases ds g opts DE r ru Hr) as [(d & Hd & RM)|(Y & X & HY & EX & _)].
  - exists (d_lhs d). left. split; [apply RM|right; apply RM].
  - destruct (de_opts _ _ _ DE _ _ HY) as ((n & An & Hn) & _). exists n. right. exists Y. subst. auto.
Qed.
Lemma elem_vname e X n : elem_sym g opts e X -> vname X n -> exists o al, e = ([n], o, al).
Proof.
  destruct e as [[ns o] al]. intros He Hv. destruct ns as [|m [|m2 ns]]; [destruct He| |].
  - destruct He as [Hm He]. exists o, al. f_equal. f_equal. f_equal. apply (vname_fun X m n); auto.
    destruct o; [right; exact He|now left].
  - exfalso. destruct He as (_ & Ha & _). destruct Hv as [[Hn [U|L]]|(Y & HY & _)].
    + rewrite (at_fun _ _ _ Hn Ha) in U. now apply upper_empty in U.
    + rewrite (at_fun _ _ _ Hn Ha) in L. discriminate.
    + destruct (opt_named _ _ HY) as (k & Hk). pose proof (at_fun _ _ _ Hk Ha). discriminate.
Qed.

Lemma step_decl r ru front B al rear b : nth_error (g_rules g) r = Some ru -> r_rhs ru = front ++ (B, al) :: rear -> vname B b ->
  exists a, vname (r_lhs ru) a /\
    ((exists d fr o al' re, In d (rules_in ds) /\ d_lhs d = a /\ d_rhs d = fr ++ ([b], o, al') :: re /\
        Forall2 (elem_sym g opts) fr (map fst front) /\ Forall2 (elem_sym g opts) re (map fst rear)) \/
     (In (B, r_lhs ru) opts /\ a = b /\ front = [])).
Proof.
  intros Hr Er Hb. destruct (rule_cases ds g opts DE r ru Hr) as [(d & Hd & RM)|(Y & X & HY & EX & HR)].
  - exists (d_lhs d). split; [left; split; [apply RM|right; apply RM]|]. left.
    pose proof (rm_rhs _ _ _ _ RM) as HF. rewrite Er, map_app in HF. cbn [map fst] in HF.
    apply Forall2_app_inv_r in HF as (fr & l & F1 & F2 & E). inversion F2 as [|e B' re rs He F3]; subst.
    destruct (elem_vname _ _ _ He Hb) as (o & al' & ->). exists d, fr, o, al', re. splits; auto.
  - subst X. assert (front = [] /\ B = Y) as [-> ->].
    { rewrite Er, map_app in HR. cbn [map fst] in HR. destruct HR as [HR|HR]; [destruct front; discriminate|].
      destruct front as [|? [|]]; cbn in HR; try discriminate. injection HR as ->. auto. }
    destruct (de_opts _ _ _ DE _ _ HY) as ((n & An & Hn) & _). exists n. split; [right; eauto|]. right. splits; auto.
    apply (vname_fun Y n b); auto. now left.
Qed.

Lemma nullable_empty es Xs : Forall2 (elem_sym g opts) es Xs -> nullable_all g Xs -> empty ds es.
Proof.
  intros HF HN. destruct (proj2 (null_tree g) _ HN) as (ts & Hts & Ey).
  destruct (proj2 (tree_says ds g opts DE _ _ (linked_direct ds g opts DE W)) _ ts Hts) as [H _].
  - rewrite Ey. intros a m [].
  - specialize (H es HF). rewrite Ey in H. exact H.
Qed.

Lemma front_mark {T T'} (R : T -> T' -> Prop) l l' : Forall2 R l l' -> (match l with [] => false | _ => true end) = match l' with [] => false | _ => true end.
Proof. destruct 1; auto. Qed.
Lemma map_mark {T T'} (f : T -> T') l : (match map f l with [] => false | _ => true end) = match l with [] => false | _ => true end.
Proof. destruct l; auto. Qed.

Lemma lead_decl f A0 B b : glead g f A0 B -> vname B b -> exists a, vname A0 a /\ (begins ds f a b \/ (f = false /\ a = b /\ In (B, A0) opts)).
Proof.
  intros (r & ru & front & al & rear & Hr & <- & Er & Hn & ->) Hb.
  destruct (step_decl r ru front B al rear b Hr Er Hb) as (a & Ha & [(d & fr & o & al' & re & Hd & Ed & Erd & F1 & F2)|(Ho & -> & ->)]).
  - exists a. split; auto. left. rewrite <- (map_mark fst), <- (front_mark _ _ _ F1). apply be_rule with re. exists d, o, al'. splits; auto.
    eapply nullable_empty; eauto.
  - exists b. split; auto.
Qed.
Lemma opt_proper X Y Z : In (Y, X) opts -> In (X, Z) opts -> False.
Proof. intros HY HZ. destruct (de_opts _ _ _ DE _ _ HZ) as ((m & Am & Hm) & _). eapply (not_both X Y m); eauto. Qed.
Theorem path_decl f A0 C : gpath g f A0 C -> forall c, vname C c -> exists a, vname A0 a /\ (begins ds f a c \/ (f = false /\ a = c /\ In (C, A0) opts)).
Proof.
  induction 1 as [f A0 B H|f f' A0 B C H IH H']; intros c Hc; [eapply lead_decl; eauto|].
  destruct (lead_decl _ _ _ _ H' Hc) as (b & Hb & HB). destruct (IH b Hb) as (a & Ha & HA). exists a. split; auto.
  destruct HA as [HA|(-> & -> & HA)], HB as [HB|(-> & -> & HB)].
  - left. eapply be_trans; eauto.
  - left. now rewrite orb_false_r.
  - left. exact HB.
  - exfalso. exact (opt_proper _ _ _ HB HA).
Qed.
Theorem hidden_none : no_hidden ds -> forall Z, ~ gpath g true Z Z.
Proof.
  intros HN Z H.
  assert (exists r ru, nth_error (g_rules g) r = Some ru /\ r_lhs ru = Z) as (r & ru & Hr & <-).
  { assert (HL : forall f A0 B, gpath g f A0 B -> exists r ru, nth_error (g_rules g) r = Some ru /\ r_lhs ru = A0).
    { induction 1 as [f A0 B (r & ru & ? & ? & ? & Hr & Hl & _)|]; eauto. }
    eauto. }
  destruct (lhs_vname _ _ Hr) as (n & Hn). destruct (path_decl _ _ _ H n Hn) as (a & Ha & [HB|(? & _)]); [|discriminate].
  rewrite (vname_fun _ _ _ Ha Hn) in HB. exact (HN _ HB).
Qed.

(** ** Cycles *)
Context (p : pst).
Lemma up_decl s Z Z' z : up g p s Z Z' -> vname Z z -> exists z', vname Z' z' /\ (turns ds z' z \/ (z' = z /\ In (Z, Z') opts)).
Proof.
  intros (r & us & al & alpha & gb & t & b & Hr & <- & Er & Hus & Ey & _) Hz.
  destruct (step_decl r _ [] Z al alpha z (nth_grule g r Hr) Er Hz) as (a & Ha & [(d & fr & o & al' & re & Hd & Ed & Erd & F1 & F2)|(Ho & -> & _)]).
  - exists a. split; auto. left. inversion F1; subst. apply tu_rule with re.
    + exists d, o, al'. splits; auto. constructor.
    + eapply nullable_empty; eauto. eapply derives_null; eauto.
  - exists z. split; auto.
Qed.
Theorem ups_decl s Z Z' : ups g p s Z Z' -> forall z, vname Z z -> exists z', vname Z' z' /\ (turns ds z' z \/ (z' = z /\ In (Z, Z') opts)).
Proof.
  induction 1 as [Z Z' H|Z Z1 Z' H H' IH]; intros z Hz; [eapply up_decl; eauto|].
  destruct (up_decl _ _ _ _ H Hz) as (z1 & H1 & HA). destruct (IH z1 H1) as (z' & Hz' & HB). exists z'. split; auto.
  destruct HA as [HA|[-> HA]], HB as [HB|[-> HB]]; auto.
  - left. eapply tu_trans; eauto.
  - exfalso. exact (opt_proper _ _ _ HA HB).
Qed.
Theorem cycle_none : acyclic ds -> forall s Z, ~ ups g p s Z Z.
Proof.
  intros HA s Z H. destruct (ups_rule g p _ _ _ H) as (r & Hr & Hl). destruct (lhs_vname _ _ (nth_grule g r Hr)) as (n & Hn). rewrite Hl in Hn.
  destruct (ups_decl _ _ _ H n Hn) as (z & Hz & [HT|[_ Ho]]).
  - rewrite (vname_fun _ _ _ Hz Hn) in HT. exact (HA _ HT).
  - exact (opt_proper _ _ _ Ho Ho).
Qed.
End Cycle.
