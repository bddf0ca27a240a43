(** A list of declarations is accepted exactly when it has none of the faults, whatever the order
    of the hash map (C38, C31). *)
From Verif Require Import Base Syntax BaseFacts FrontEnd First States Actions Tables Spec WfGrammar FirstFacts AutoFacts PipeFacts FrontFacts BuildFacts DeclSpec DeclFacts GramFacts LangFacts PanicFacts ExpandFacts Main Claims7
  FaultSpec FaultFacts FaultDuel FaultAct PanicSort FaultBack FaultNone Reorder ReorderFront.
From Coq Require Import Sorting.Permutation.

(** Two runs that do not run out of fuel *)
Definition agree {A} (x y : gres A) : Prop := x = GFuel \/ y = GFuel \/ x = y.
Lemma agree_refl {A} (x : gres A) : agree x x. Proof. right. right. reflexivity. Qed.
Lemma agree_bind {A B} (x y : gres A) (h k : A -> gres B) : agree x y -> (forall a, agree (h a) (k a)) -> agree (gbind x h) (gbind y k).
Proof. intros [-> | [-> | ->]] H; [left; reflexivity|right; left; reflexivity|]. destruct y; cbn; auto; apply agree_refl. Qed.
Lemma agree_fold {A S} (F G : S -> A -> gres S) : (forall s a, agree (F s a) (G s a)) -> forall l s, agree (gfold F l s) (gfold G l s).
Proof. intros H. induction l as [|a l IH]; intros s; cbn [gfold]; [apply agree_refl|]. apply agree_bind; auto. Qed.
Lemma agree_check n : forall m f syms fb, agree (fallback_check n f syms fb) (fallback_check m f syms fb).
Proof.
  induction n as [|n IH]; intros [|m] f syms fb; cbn [fallback_check]; [left|left|right; left|]; auto. destruct (sy_fb (get_sym f fb)); [|apply agree_refl]. destruct (smem _ _); [apply agree_refl|auto].
Qed.
Lemma agree_decl n m f d : agree (parse_one_decl n f d) (parse_one_decl m f d).
Proof.
  destruct d; try apply agree_refl. unfold parse_one_decl. apply agree_bind; [apply agree_refl|]. intros [s1 g1]. destruct (is_terminal_ident fb); [|apply agree_refl].
  apply agree_bind; [apply agree_refl|]. intros [t1 k1]. apply agree_bind; [apply agree_check|]. intros u. apply agree_refl.
Qed.
Lemma agree_front n m ds : agree (new_from_decls n ds) (new_from_decls m ds).
Proof. unfold new_from_decls. apply agree_bind; [apply agree_fold, agree_decl|]. intros f. apply agree_refl. Qed.
Lemma front_fun n m ds f1 f2 : new_from_decls n ds = GOk f1 -> new_from_decls m ds = GOk f2 -> f1 = f2.
Proof. intros H1 H2. destruct (agree_front n m ds) as [E|[E|E]]; congruence. Qed.

Lemma written_wf ds g : written ds g -> wf_grammar g.
Proof. intros [(ord & Ho & fuel & f & g0 & Hf & H0 & H1) _]. eapply prepared_wf; eauto. eapply new_from_decls_spec; eauto. Qed.
Theorem written_reord ds g1 g2 : written ds g1 -> written ds g2 -> exists n phi psi, reord n g1 g2 phi psi.
Proof.
  intros [(o1 & O1 & n1 & f1 & g01 & F1 & P1 & N1) _] [(o2 & O2 & n2 & f2 & g02 & F2 & P2 & N2) _]. rewrite (front_fun _ _ _ _ _ F2 F1) in *.
  destruct (front_reord ds o1 o2 n1 f1 g01 g02 g1 g2 O1 O2 F1 P1 N1 P2 N2) as (phi & psi & R). eauto.
Qed.
(** Conflicts and lost rules do not depend on the order. *)
Theorem faults_unordered ds g1 g2 : written ds g1 -> written ds g2 -> (conflicting g1 <-> conflicting g2) /\ ((exists r, lost g1 r) <-> (exists r, lost g2 r)).
Proof.
  intros H1 H2. destruct (written_reord ds g1 g2 H1 H2) as (n & phi & psi & R). pose proof (rd_sym _ _ _ _ _ R) as R'. splits; split.
  - now apply (rd_conflicting _ _ _ _ _ R').
  - now apply (rd_conflicting _ _ _ _ _ R).
  - intros [r H]. exists (psi r). now apply (rd_lost _ _ _ _ _ R').
  - intros [r H]. exists (phi r). now apply (rd_lost _ _ _ _ _ R).
Qed.
Lemma expands_written ds b : expands ds b -> written ds (bt_grammar b).
Proof.
  intros (fuel & ord & Ho & H). pose proof (build_declared _ _ _ _ Ho H) as DE. apply build_inv in H as (f & Hf & R). destruct (rn_prep _ _ _ _ R) as (g0 & H0 & H1).
  split; auto. exists ord. split; auto. exists fuel, f, g0. auto.
Qed.

(** An expanded grammar has no fault at all. *)
Theorem expanded_faultless ds b : expands ds b -> forall e, (e = EFallbackType \/ e = ECompoundAlias -> flat_decls ds) -> ~ fault ds e.
Proof.
  intros EX e HFL HF. pose proof (expands_written _ _ EX) as HW. destruct (expanded_decided ds b EX) as [D1 D2].
  assert (e = ENotReduced \/ e = EConflicts \/ e <> ENotReduced /\ e <> EConflicts) as [->|[->|[N1 N2]]] by (destruct e; auto; right; right; split; discriminate).
  - destruct HF as (g & r & Hg & Hr). assert (HX : exists q, lost (bt_grammar b) q) by (apply (faults_unordered ds g _ Hg HW); eauto). destruct HX as [q Hq]. exact (D2 q Hq).
  - destruct HF as (g & Hg & Hr). apply D1. now apply (faults_unordered ds g _ Hg HW).
  - exact (expanded_sound ds b EX e N1 N2 HFL HF).
Qed.
Lemma faultless_leave ds : ~ fault ds EConflicts -> shifts_leave ds.
Proof. intros HN g HW HL. apply HN. exists g. split; auto. now apply looping_conflicting. Qed.
(** The macro accepts exactly the declarations that have no fault. *)
Theorem accepted_exactly ds : no_self_fallback ds -> elems_named ds -> classes_begin ds -> flat_decls ds -> (exists b, expands ds b) <-> (forall e, ~ fault ds e).
Proof.
  intros H1 H2 H3 HFL. split.
  - intros [b EX] e. now apply (expanded_faultless ds b EX).
  - intros HN. destruct (expansion_answers ds (fun l => l) H1 H2 H3 (faultless_leave ds (HN EConflicts)) (fun l => Permutation_refl l)) as (n & r & Hr & [[b ->]|[e ->]]).
    + exists b, n, (fun l => l). split; [intros l; reflexivity|]. apply Hr. lia.
    + exfalso. apply (HN e). apply (rejected_for_a_reason n (fun l => l) ds e (fun l => Permutation_refl l)); auto.
Qed.

(** ** Acceptance does not depend on the order *)
Lemma gfold_ext {A S} (F G : S -> A -> gres S) : (forall s a, F s a = G s a) -> forall l s, gfold F l s = gfold G l s.
Proof. intros H. induction l as [|a l IH]; intros s; cbn [gfold]; auto. rewrite H. destruct (G s a); cbn; auto. Qed.
Section Gen.
Context (n : nat) (g1 g2 : grammar) (phi psi : nat -> nat) (RD : reord n g1 g2 phi psi).
Lemma same_types : type_symbols g2 = type_symbols g1.
Proof.
  unfold type_symbols. rewrite (rd_syms _ _ _ _ _ RD). apply gfold_ext. intros [[m ss] dts] i. unfold type_symbol. rewrite (rd_wild _ _ _ _ _ RD), (rd_fe _ _ _ _ _ RD). reflexivity.
Qed.
Lemma same_has s : has_type g2 s = has_type g1 s.
Proof. unfold has_type. now rewrite (rd_gsym _ _ _ _ _ RD). Qed.
Lemma same_translate dts ru : translate_code g2 dts ru = translate_code g1 dts ru.
Proof.
  unfold translate_code. rewrite (rd_wild _ _ _ _ _ RD). f_equal. apply gfold_ext. intros [] [X al]. now rewrite (rd_gsym _ _ _ _ _ RD).
Qed.
Lemma generate_quiet p1 p2 t : generate_source g1 p1 = GOk t -> forall e, generate_source g2 p2 <> GErr e.
Proof.
  intros H e H'. unfold generate_source in H, H'. rewrite (rd_wild _ _ _ _ _ RD), same_types, (rd_fe _ _ _ _ _ RD) in H'. cbn [f_token f_parser set_rules] in H'.
  apply gbind_ok in H as (w & Hw & H). apply gbind_err in H' as [H'|(w' & _ & H')].
  { destruct (g_wild g1); [|discriminate]. rewrite same_has in H'. destruct (has_type g1 n0); discriminate. }
  apply gbind_ok in H as ([[m ss] dts] & HT & H). rewrite HT in H'. apply gbind_err in H' as [H'|([[m' ss'] dts'] & E & H')]; [discriminate|]. injection E as <- <- <-.
  apply gbind_ok in H as (u1 & C1 & H). apply gbind_err in H' as [H'|(u1' & _ & H')]; [congruence|].
  apply gbind_ok in H as (u2 & C2 & H). apply gbind_err in H' as [H'|(u2' & _ & H')]; [congruence|].
  apply gbind_ok in H as (u3 & C3 & H). apply gbind_err in H' as [H'|(u3' & _ & H')]; [congruence|].
  apply gbind_ok in H as (k & _ & H). apply gbind_err in H' as [H'|(k' & _ & H')]; [now apply quiet_pack in H'|].
  apply gbind_ok in H as (so & _ & H). apply gbind_err in H' as [H'|(so' & _ & H')]; [now apply quiet_ofst in H'|].
  apply gbind_ok in H as (ro & _ & H). apply gbind_err in H' as [H'|(ro' & _ & H')]; [now apply quiet_ofst in H'|].
  apply gbind_ok in H as (fb & C4 & H). apply gbind_err in H' as [H'|(fb' & _ & H')]; [congruence|].
  apply gbind_ok in H as (rr & C5 & H). apply gbind_err in H' as [H'|(rr' & _ & H')]; [|discriminate].
  unfold gmapM in H', C5. apply gfold_err in H' as (l1 & ru & l2 & acc & El & _ & H'). assert (Hru : In ru (g_rules g2)) by (rewrite El; apply in_app_iff; right; now left).
  apply In_nth_error in Hru as [i Hi]. rewrite (rd_rule _ _ _ _ _ RD) in Hi. apply nth_error_In in Hi. destruct (GramFacts.gfold_each _ _ _ _ C5 _ Hi) as (s1 & s2 & HX). rewrite same_translate in H'.
  apply gbind_ok in HX as (x & HX & _). rewrite HX in H'. discriminate.
Qed.
End Gen.

Theorem accepted_any_order ds b ord : expands ds b -> no_self_fallback ds -> elems_named ds -> classes_begin ds -> hash_order ord ->
  exists n b', forall n', n <= n' -> build n' ord ds = GOk b'.
Proof.
  intros EX H1 H2 H3 Ho. assert (HL : shifts_leave ds) by (apply faultless_leave, (expanded_faultless ds b EX); intros [E|E]; discriminate).
  destruct (expansion_answers ds ord H1 H2 H3 HL Ho) as (n & r & Hr & [[b' ->]|[e ->]]); eauto. exfalso.
  specialize (Hr n (le_n _)). pose proof (expands_written _ _ EX) as HW.
  assert (HF : (e = EFallbackType \/ e = ECompoundAlias -> False) -> False).
  { intros HE. apply (expanded_faultless ds b EX e); [tauto|]. eapply rejected_for_a_reason; eauto. tauto. }
  apply HF. intros HE. clear HF. destruct EX as (n1 & o1 & O1 & HB). unfold build in HB, Hr. apply gbind_ok in HB as (f1 & F1 & HB). unfold build_fe in HB, Hr.
  apply gbind_err in Hr as [Hr|(f & Hf & Hr)]; [destruct (agree_front n1 n ds) as [E|[E|E]]; congruence|].
  apply gbind_err in Hr as [Hr|(g0 & P0 & Hr)]; [now apply prepare_no_err in Hr|]. apply gbind_err in Hr as [Hr|(g & N0 & Hr)].
  { unfold normalize_rules in Hr. apply gbind_err in Hr as [Hr|(rs & _ & Hr)]; [|discriminate]. apply gfold_err in Hr as (l1 & ru & l2 & s & _ & _ & Hr). apply gbind_err in Hr as [Hr|(r' & _ & Hr)]; [|discriminate].
    unfold normalize_rule in Hr. destruct (r_code ru); try discriminate. destruct (has_type _ _); [|discriminate]. destruct (_ && _); [discriminate|]. injection Hr as <-. destruct HE; discriminate. }
  pose proof (new_from_decls_spec _ _ _ Hf) as D. pose proof (prepared_wf _ _ _ _ D Ho P0 N0) as W. destruct (front_declared _ _ _ _ _ _ Ho Hf P0 N0) as (opts & DE).
  apply gbind_err in Hr as [Hr|(fi & Hfi & Hr)]; [now apply quiet_first in Hr|]. pose proof (find_first_sets_exact _ g fi W Hfi) as F.
  apply gbind_err in Hr as [Hr|(p1 & Hp1 & Hr)].
  { apply states_err in Hr as [(-> & _)|(-> & _)]; auto; destruct HE; discriminate. }
  apply gbind_err in Hr as [Hr|(p2 & Hp2 & Hr)]; [now apply quiet_follow in Hr|]. pose proof (aut_main g fi W F p1 p2 n n Hp1 Hp2) as A.
  apply gbind_err in Hr as [Hr|([p3 nc] & HA & Hr)]; [apply (lost_found g W p2 A) in Hr as [-> _]; destruct HE; discriminate|].
  destruct (0 <? nc); [injection Hr as <-; destruct HE; discriminate|].
  apply gbind_err in Hr as [Hr|(p4 & _ & Hr)]; [now apply quiet_compress in Hr|]. apply gbind_err in Hr as [Hr|(t & _ & Hr)]; [|discriminate].
  apply gbind_ok in HB as (g01 & _ & HB). apply gbind_ok in HB as (g1 & _ & HB). apply gbind_ok in HB as (x1 & _ & HB). apply gbind_ok in HB as (x2 & _ & HB). apply gbind_ok in HB as (x3 & _ & HB).
  apply gbind_ok in HB as ([x4 nc'] & _ & HB). destruct (0 <? nc'); [discriminate|]. apply gbind_ok in HB as (x5 & _ & HB). apply gbind_ok in HB as (t1 & HT & HB). injection HB as <-. cbn [bt_grammar] in HW.
  assert (HG : written ds g) by (split; eauto; exists ord; split; auto; exists n, f, g0; auto).
  destruct (written_reord ds g1 g HW HG) as (k & phi & psi & R). exact (generate_quiet k g1 g phi psi R _ _ _ HT _ Hr).
Qed.
