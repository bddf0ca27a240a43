(** Where the order of the declarations matters although the documentation says that it does not
    (C46), and where an extension changes what was accepted before (C48). *)
From Coq Require Import Permutation.
From Verif Require Import Base Syntax BaseFacts FrontEnd First States Actions Tables Runtime User Spec Demo Refutations DeclSpec TypeDecl Main Checks DeclMore Claims3 Claims6 FaultSpec OrderSpec OrderFacts OrderIso Claims23 Rename.
From Verif Require Claims13.
Open Scope string_scope. Open Scope nat_scope. Open Scope list_scope.

(** [%stack_size 5; %stack_size 7 T;] is accepted, the other order is an error; the same with
    [%type A; %type A T;]. *)
Definition sizes_ds (d e : decl) : list decl := [d; e; rl "s" ["A"] 1].
Definition sizes_b := Eval vm_compute in get (build 300 ida (sizes_ds (DStackSize 5 None) (DStackSize 7 (Some (TyName "T"))))).
Definition types_b2 := Eval vm_compute in get (build 300 ida (sizes_ds (DType 0 "A" None) (DType 0 "A" (Some (TyName "T"))))).
Theorem directive_order_refuted :
  (exists n m t b, expands (sizes_ds (DStackSize n None) (DStackSize m (Some t))) b /\ forall b', ~ expands (sizes_ds (DStackSize m (Some t)) (DStackSize n None)) b') /\
  (exists t b, expands (sizes_ds (DType 0 "A" None) (DType 0 "A" (Some t))) b /\ forall b', ~ expands (sizes_ds (DType 0 "A" (Some t)) (DType 0 "A" None)) b').
Proof.
  split.
  - exists 5, 7, (TyName "T"), sizes_b. split; [exists 300, ida; split; [intros l; apply Permutation_refl|vm_compute; reflexivity]|].
    intros b' EX. apply (Claims13.expanded_faultless _ _ EX EStackSizeDup); [intros [H|H]; discriminate|].
    exists [DStackSize 7 (Some (TyName "T"))], 5, None, [rl "s" ["A"] 1], 7, (TyName "T"). split; [reflexivity|now left].
  - exists (TyName "T"), types_b2. split; [exists 300, ida; split; [intros l; apply Permutation_refl|vm_compute; reflexivity]|].
    intros b' EX. apply (Claims13.expanded_faultless _ _ EX ETypeDup); [intros [H|H]; discriminate|].
    exists [DType 0 "A" (Some (TyName "T"))], 0, "A", None, [rl "s" ["A"] 1]. split; [reflexivity|discriminate].
Qed.

(** Two rules of the same %left level that apply at the same place: the one that is written later
    is taken, so the order of the rules decides what the parser returns. *)
Definition tie_ds (r1 r2 : decl) : list decl :=
  [DAssoc ALeft ["A"]; rl "s" ["x"; "B"] 1; rl "s" ["y"; "B"] 2; rl "s" ["C"; "x"; "D"] 3; rl "s" ["E"; "y"; "F"] 4; r1; r2].
Definition tie_x := rl "x" ["A"] 5.
Definition tie_y := rl "y" ["A"] 6.
Definition tie_b1 := Eval vm_compute in get (build 300 ida (tie_ds tie_x tie_y)).
Definition tie_b2 := Eval vm_compute in get (build 300 ida (tie_ds tie_y tie_x)).
Theorem rule_order_refuted : exists ds1 ds2 b1 b2 (ks : list (token val)),
  expands ds1 b1 /\ usable ds1 b1 /\ expands ds2 b2 /\ usable ds2 b2 /\ types_ok ds1 /\ rearranged ds1 ds2 /\ no_rivals ds1 /\ wildcard_of ds1 = None /\ (forall n, fallback_of ds1 n = None) /\
  tokens_wf b1 ks /\ tokens_wf b2 ks /\ reading b1 dsem ks = reading b2 dsem ks /\
  (exists n pp, api_run n (bt_tables b1) dsem [] ks = ROk (VUnit, [6; 2]) pp) /\ (exists n pp, api_run n (bt_tables b2) dsem [] ks = ROk (VUnit, [5; 1]) pp).
Proof.
  exists (tie_ds tie_x tie_y), (tie_ds tie_y tie_x), tie_b1, tie_b2, [(1, None); (2, None)]. splits.
  - exists 300, ida; split; [intros l; apply Permutation_refl|vm_compute; reflexivity].
  - apply fine_b_ok. vm_compute. reflexivity.
  - exists 300, ida; split; [intros l; apply Permutation_refl|vm_compute; reflexivity].
  - apply fine_b_ok. vm_compute. reflexivity.
  - apply types_b_ok. vm_compute. reflexivity.
  - split; [|reflexivity|reflexivity]. unfold tie_ds. do 5 apply perm_skip. apply perm_swap.
  - repeat constructor; intros H; exact H.
  - reflexivity.
  - intros n. reflexivity.
  - apply tokens_wf_b_ok. vm_compute. reflexivity.
  - apply tokens_wf_b_ok. vm_compute. reflexivity.
  - vm_compute. reflexivity.
  - exists 300. eexists. vm_compute. reflexivity.
  - exists 300. eexists. vm_compute. reflexivity.
Qed.

(** With precedences a new rule can take an old input away from the old rules. *)
Definition ext_ds1 : list decl := [DAssoc ALeft ["A"]; DAssoc ALeft ["B"]; rl "s" ["x"; "B"] 1; rl "s" ["x"; "C"] 2; rl "x" ["A"] 3; rl "s" ["D"] 5].
Definition ext_ds2 : list decl := ext_ds1 ++ [rl "s" ["A"; "B"] 4].
Definition ext_b1 := Eval vm_compute in get (build 300 ida ext_ds1).
Definition ext_b2 := Eval vm_compute in get (build 300 ida ext_ds2).
Theorem extension_precedence_refuted : exists ds1 ds2 b1 b2 (ks : list (token val)),
  grown ds1 ds1 ds2 /\ expands ds1 b1 /\ usable ds1 b1 /\ expands ds2 b2 /\ usable ds2 b2 /\ no_fallback ds1 /\ wildcard_of ds2 = None /\ types_ok ds2 /\ start_of ds1 = start_of ds2 /\
  tokens_wf b1 ks /\ tokens_wf b2 ks /\ reading b1 dsem ks = reading b2 dsem ks /\
  (exists n pp, api_run n (bt_tables b1) dsem [] ks = ROk (VUnit, [3; 1]) pp) /\ (exists n pp, api_run n (bt_tables b2) dsem [] ks = ROk (VUnit, [4]) pp).
Proof.
  exists ext_ds1, ext_ds2, ext_b1, ext_b2, [(1, None); (2, None)]. splits.
  - unfold ext_ds2, ext_ds1. cbn. do 6 apply gr_keep. apply gr_add; [exact I|constructor].
  - exists 300, ida; split; [intros l; apply Permutation_refl|vm_compute; reflexivity].
  - apply fine_b_ok. vm_compute. reflexivity.
  - exists 300, ida; split; [intros l; apply Permutation_refl|vm_compute; reflexivity].
  - apply fine_b_ok. vm_compute. reflexivity.
  - intros n. reflexivity.
  - reflexivity.
  - apply types_b_ok. vm_compute. reflexivity.
  - reflexivity.
  - apply tokens_wf_b_ok. vm_compute. reflexivity.
  - apply tokens_wf_b_ok. vm_compute. reflexivity.
  - vm_compute. reflexivity.
  - exists 300. eexists. vm_compute. reflexivity.
  - exists 300. eexists. vm_compute. reflexivity.
Qed.

(** So can a new rule for a token that fell back before. *)
Definition ext_ds3 : list decl := [DFallback "A" ["B"]; rl "s" ["A"] 1].
Definition ext_ds4 : list decl := ext_ds3 ++ [rl "s" ["B"] 2].
Definition ext_b3 := Eval vm_compute in get (build 300 ida ext_ds3).
Definition ext_b4 := Eval vm_compute in get (build 300 ida ext_ds4).
Theorem extension_fallback_refuted : exists ds1 ds2 b1 b2 (ks1 ks2 : list (token val)),
  grown ds1 ds1 ds2 /\ expands ds1 b1 /\ usable ds1 b1 /\ expands ds2 b2 /\ usable ds2 b2 /\ Main.plain ds2 /\ types_ok ds2 /\ start_of ds1 = start_of ds2 /\
  tokens_wf b1 ks1 /\ tokens_wf b2 ks2 /\ reading b1 dsem ks1 = reading b2 dsem ks2 /\
  (exists n pp, api_run n (bt_tables b1) dsem [] ks1 = ROk (VUnit, [1]) pp) /\ (exists n pp, api_run n (bt_tables b2) dsem [] ks2 = ROk (VUnit, [2]) pp).
Proof.
  exists ext_ds3, ext_ds4, ext_b3, ext_b4, [(1, None)], [(1, None)]. splits.
  - unfold ext_ds4, ext_ds3. cbn. do 2 apply gr_keep. apply gr_add; [exact I|constructor].
  - exists 300, ida; split; [intros l; apply Permutation_refl|vm_compute; reflexivity].
  - apply fine_b_ok. vm_compute. reflexivity.
  - exists 300, ida; split; [intros l; apply Permutation_refl|vm_compute; reflexivity].
  - apply fine_b_ok. vm_compute. reflexivity.
  - split; [intros n|]; reflexivity.
  - apply types_b_ok. vm_compute. reflexivity.
  - reflexivity.
  - apply tokens_wf_b_ok. vm_compute. reflexivity.
  - apply tokens_wf_b_ok. vm_compute. reflexivity.
  - vm_compute. reflexivity.
  - exists 300. eexists. vm_compute. reflexivity.
  - exists 300. eexists. vm_compute. reflexivity.
Qed.

(** The error symbol has to keep its name, and no other symbol may take it: a non-terminal that
    is renamed to [error] makes the parser mend errors. *)
Definition err_ren (a : ident) : ident := if String.eqb a "item" then "error" else a.
Definition err_ds1 : list decl := [rl "s" ["item"; "D"] 1; rl "item" ["A"] 2; rl "item" ["B"] 3].
Definition err_b1 := Eval vm_compute in get (build 300 ida err_ds1).
Definition err_b2 := Eval vm_compute in get (build 300 ida (map (ren_decl err_ren) err_ds1)).
Theorem renaming_error_refuted : exists u ds b1 b2 (ks : list (token val)),
  (forall a b, In a (flat_map mention ds) -> In b (flat_map mention ds) -> u a = u b -> a = b) /\
  (forall a, In a (flat_map mention ds) -> is_terminal_ident (u a) = is_terminal_ident a /\ is_nonterminal_ident (u a) = is_nonterminal_ident a) /\
  expands ds b1 /\ usable ds b1 /\ expands (map (ren_decl u) ds) b2 /\ usable (map (ren_decl u) ds) b2 /\ tokens_wf b1 ks /\ tokens_wf b2 ks /\
  (exists n pp, api_run n (bt_tables b1) esem [] ks = RErr 88 pp) /\ (exists n pp, api_run n (bt_tables b2) esem [] ks = ROk (VUnit, [77; 1]) pp).
Proof.
  exists err_ren, err_ds1, err_b1, err_b2, [(1, None); (1, None)]. splits.
  - intros a b Ha Hb. cbn in Ha, Hb. repeat destruct Ha as [<-|Ha]; try contradiction; repeat destruct Hb as [<-|Hb]; try contradiction; cbn; congruence.
  - intros a Ha. cbn in Ha. repeat destruct Ha as [<-|Ha]; try contradiction; auto.
  - exists 300, ida; split; [intros l; apply Permutation_refl|vm_compute; reflexivity].
  - apply fine_b_ok. vm_compute. reflexivity.
  - exists 300, ida; split; [intros l; apply Permutation_refl|vm_compute; reflexivity].
  - apply fine_b_ok. vm_compute. reflexivity.
  - apply tokens_wf_b_ok. vm_compute. reflexivity.
  - apply tokens_wf_b_ok. vm_compute. reflexivity.
  - exists 300. eexists. vm_compute. reflexivity.
  - exists 300. eexists. vm_compute. reflexivity.
Qed.
