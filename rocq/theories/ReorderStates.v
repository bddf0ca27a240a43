(** The automata of two grammars that differ only in the order of the rules added for optional
    symbols: their states correspond, with the same items, lookaheads and transitions up to the
    names of rules and states (C31). *)
From Verif Require Import Base Syntax BaseFacts FrontEnd First States Actions Spec WfGrammar ClosureFacts AutoFacts GramFacts ActFacts
  FaultSpec LalrFacts Reorder.
From Coq Require Import Sorting.Permutation FinFun.

Lemma finite_choice (P : nat -> nat -> Prop) n : (forall s, s < n -> exists t, P s t) -> exists f, forall s, s < n -> P s (f s).
Proof.
  induction n as [|n IH]; intros H; [exists (fun s => s); lia|]. destruct IH as [f Hf]; [auto|]. destruct (H n) as [t Ht]; auto.
  exists (fun s => if s =? n then t else f s). intros s Hs. destruct (Nat.eqb_spec s n) as [->|N]; auto. apply Hf. lia.
Qed.

(** Injective maps between two ranges: neither is smaller. *)
Lemma inj_range (f : nat -> nat) n m : (forall s, s < n -> f s < m) -> (forall s t, s < n -> t < n -> f s = f t -> s = t) -> n <= m.
Proof.
  intros HR HI. rewrite <- (seq_length n 0), <- (map_length f), <- (seq_length m 0). apply NoDup_incl_length.
  - apply nodup_map_into; [|apply seq_NoDup]. intros x y Hx Hy. apply in_seq in Hx, Hy. apply HI; lia.
  - intros x Hx. apply in_map_iff in Hx as (s & <- & Hs). apply in_seq in Hs. apply in_seq. specialize (HR s). lia.
Qed.

Section Twin.
Context (n : nat) (g1 g2 : grammar) (phi psi : nat -> nat) (RD : reord n g1 g2 phi psi) (p1 p2 : pst) (A1 : Aut g1 p1) (A2 : Aut g2 p2).
Notation n1 := (List.length (p_states p1)).
Notation n2 := (List.length (p_states p2)).

(** The same string of symbols leads to both states. *)
Definition twin (s2 s1 : nat) : Prop := exists gamma, path g2 p2 gamma s2 /\ path g1 p1 gamma s1.

Lemma twin_item s2 s1 r d : twin s2 s1 -> item p2 s2 (r, d) <-> item p1 s1 (phi r, d).
Proof.
  intros (gamma & P2 & P1). split; intros H.
  - eapply lr0_item; eauto. apply (rd_lr0_iff _ _ _ _ _ RD). apply (item_lr0 g2 p2 A2 gamma s2 (r, d)); auto.
  - eapply lr0_item; eauto. apply (rd_lr0_iff _ _ _ _ _ RD). apply (item_lr0 g1 p1 A1 gamma s1 (phi r, d)); auto.
Qed.
Lemma twin_post r d : kpost g2 (r, d) = kpost g1 (phi r, d).
Proof. unfold kpost. cbn [fst snd]. now rewrite (rd_grule _ _ _ _ _ RD). Qed.
Lemma twin_step s2 s1 X t2 : twin s2 s1 -> edge g2 p2 s2 X t2 -> exists t1, edge g1 p1 s1 X t1 /\ twin t2 t1.
Proof.
  intros T E. destruct (au_edge g2 p2 A2 _ _ _ E) as (_ & [r d] & Hi & HX). apply (twin_item _ _ _ _ T) in Hi. rewrite twin_post in HX.
  destruct (au_next g1 p1 A1 _ _ _ Hi HX) as [t1 E1]. exists t1. split; auto. destruct T as (gamma & P2 & P1). exists (gamma ++ [X]). split; econstructor; eauto.
Qed.
Lemma path_twin gamma s2 : path g2 p2 gamma s2 -> exists s1, path g1 p1 gamma s1.
Proof.
  induction 1 as [|gamma s X t P2 [s1 P1] E]; [exists 0; constructor|]. destruct (twin_step s s1 X t) as (t1 & E1 & _); auto; [exists gamma; auto|].
  exists t1. econstructor; eauto.
Qed.
Lemma twin_some s2 : s2 < n2 -> exists s1, twin s2 s1.
Proof. intros H. destruct (path_reach g2 p2 A2 s2 H) as [gamma P2]. destruct (path_twin _ _ P2) as [s1 P1]. exists s1, gamma. auto. Qed.
Lemma twin_range s2 s1 : twin s2 s1 -> s2 < n2 /\ s1 < n1.
Proof. intros (gamma & P2 & P1). split; eapply path_range; eauto. Qed.
Lemma twin_fun s2 s1 s1' : twin s2 s1 -> twin s2 s1' -> s1 = s1'.
Proof.
  intros T T'. apply (au_uniq g1 p1 A1); [eapply twin_range; eauto..|]. intros [r d]. rewrite <- (rd_psi _ _ _ _ _ RD r), <- (twin_item _ _ _ _ T), <- (twin_item _ _ _ _ T'). tauto.
Qed.
Lemma twin_inj s2 s2' s1 : twin s2 s1 -> twin s2' s1 -> s2 = s2'.
Proof.
  intros T T'. apply (au_uniq g2 p2 A2); [eapply twin_range; eauto..|]. intros [r d]. rewrite (twin_item _ _ _ _ T), (twin_item _ _ _ _ T'). tauto.
Qed.
Lemma twin_look s2 s1 r d b : twin s2 s1 -> look p2 s2 (r, d) b -> look p1 s1 (phi r, d) b.
Proof.
  intros T H. rewrite (au_look g2 p2 A2) in H. apply (spread_lr1 g2 p2 A2) in H as (gamma & P2 & H). cbn [fst snd] in H.
  destruct (path_twin _ _ P2) as [s1' P1]. assert (T' : twin s2 s1') by (exists gamma; auto). rewrite (twin_fun _ _ _ T T').
  rewrite (au_look g1 p1 A1). eapply lr1_spread; eauto. now apply (rd_lr1_iff _ _ _ _ _ RD).
Qed.
Lemma twin_edge s2 s1 X t2 t1 : twin s2 s1 -> twin t2 t1 -> edge g2 p2 s2 X t2 -> edge g1 p1 s1 X t1.
Proof. intros T T' E. destruct (twin_step _ _ _ _ T E) as (t & E1 & T2). now rewrite (twin_fun _ _ _ T' T2). Qed.
End Twin.

Lemma twin_sym g1 g2 p1 p2 s2 s1 : twin g1 g2 p1 p2 s2 s1 -> twin g2 g1 p2 p1 s1 s2.
Proof. intros (gamma & P2 & P1). exists gamma. auto. Qed.

(** The names of the states: [sig] and [tau] are inverse to each other. *)
Record paired (g1 g2 : grammar) (p1 p2 : pst) (phi sig tau : nat -> nat) : Prop := {
  pd_len : List.length (p_states p2) = List.length (p_states p1);
  pd_sig : forall s, tau (sig s) = s;
  pd_tau : forall s, sig (tau s) = s;
  pd_lt : forall s, s < List.length (p_states p2) <-> sig s < List.length (p_states p1);
  pd_0 : sig 0 = 0;
  pd_twin : forall s, s < List.length (p_states p2) -> twin g1 g2 p1 p2 s (sig s);
  pd_edge : forall s X t, s < List.length (p_states p2) -> edge g2 p2 s X t <-> edge g1 p1 (sig s) X (sig t);
  pd_look : forall s r d b, s < List.length (p_states p2) -> look p2 s (r, d) b <-> look p1 (sig s) (phi r, d) b }.

Theorem states_paired n g1 g2 phi psi p1 p2 : reord n g1 g2 phi psi -> Aut g1 p1 -> Aut g2 p2 -> exists sig tau, paired g1 g2 p1 p2 phi sig tau.
Proof.
  intros RD A1 A2. pose proof (rd_sym _ _ _ _ _ RD) as DR. set (n1 := List.length (p_states p1)). set (n2 := List.length (p_states p2)).
  destruct (finite_choice (twin g1 g2 p1 p2) n2) as [f Hf]; [intros; eapply twin_some; eauto|].
  destruct (finite_choice (twin g2 g1 p2 p1) n1) as [h Hh]; [intros; eapply (twin_some n g2 g1); eauto|].
  assert (Rf : forall s, s < n2 -> f s < n1) by (intros s Hs; eapply twin_range; eauto).
  assert (Rh : forall s, s < n1 -> h s < n2) by (intros s Hs; eapply (twin_range g2 g1); eauto).
  assert (Ef : forall s, s < n2 -> h (f s) = s).
  { intros s Hs. apply (twin_inj n g1 g2 phi psi RD p1 p2 A1 A2 _ _ (f s)); auto. apply twin_sym. apply Hh. now apply Rf. }
  assert (Eh : forall s, s < n1 -> f (h s) = s).
  { intros s Hs. apply (twin_fun n g1 g2 phi psi RD p1 p2 A1 A2 (h s)); auto. apply twin_sym. now apply Hh. }
  assert (EN : n2 = n1).
  { apply Nat.le_antisymm; [apply (inj_range f)|apply (inj_range h)]; auto; intros s t Hs Ht E; [rewrite <- (Ef s Hs), E|rewrite <- (Eh s Hs), E]; auto. }
  set (sig := fun s => if s <? n2 then f s else s). set (tau := fun s => if s <? n1 then h s else s).
  assert (Ls : forall s, s < n2 -> sig s = f s) by (intros s Hs; unfold sig; apply Nat.ltb_lt in Hs; now rewrite Hs).
  assert (Lt : forall s, s < n1 -> tau s = h s) by (intros s Hs; unfold tau; apply Nat.ltb_lt in Hs; now rewrite Hs).
  assert (Gs : forall s, n2 <= s -> sig s = s) by (intros s Hs; unfold sig; apply Nat.ltb_ge in Hs; now rewrite Hs).
  assert (Gt : forall s, n1 <= s -> tau s = s) by (intros s Hs; unfold tau; apply Nat.ltb_ge in Hs; now rewrite Hs).
  assert (TW : forall s, s < n2 -> twin g1 g2 p1 p2 s (sig s)) by (intros s Hs; rewrite Ls; auto).
  exists sig, tau. constructor; fold n1 n2; auto.
  - intros s. destruct (Nat.lt_ge_cases s n2) as [L|L]; [rewrite Ls, Lt; auto|rewrite Gs, Gt; auto; lia].
  - intros s. destruct (Nat.lt_ge_cases s n1) as [L|L]; [rewrite Lt, Ls; auto|rewrite Gt, Gs; auto; lia].
  - intros s. destruct (Nat.lt_ge_cases s n2) as [L|L]; [rewrite Ls by auto; split; auto|rewrite Gs by auto; lia].
  - pose proof (au_pos g2 p2 A2) as L. apply (twin_fun n g1 g2 phi psi RD p1 p2 A1 A2 0); [now apply TW|]. exists []. split; constructor.
  - intros s X t Hs. split; intros E.
    + eapply (twin_edge n g1 g2); eauto. apply TW. now apply (au_edge g2 p2 A2) in E as [? _].
    + assert (Lt1 : sig t < n1) by now apply (au_edge g1 p1 A1) in E as [? _].
      assert (Ht : t < n2). { destruct (Nat.lt_ge_cases t n2) as [L|L]; auto. rewrite Gs in Lt1 by auto. lia. }
      eapply (twin_edge n g2 g1); eauto; apply twin_sym; auto.
  - intros s r d b Hs. split; intros H; [eapply (twin_look n g1 g2); eauto|].
    rewrite <- (rd_phi _ _ _ _ _ RD r). eapply (twin_look n g2 g1); eauto. apply twin_sym. auto.
Qed.
