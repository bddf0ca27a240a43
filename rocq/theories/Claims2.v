(** More guarantees of the generated parser, from the declarations. *)
From Coq Require Import Permutation.
From Verif Require Import Base Syntax BaseFacts FrontEnd First States Actions Tables Runtime User Spec WfGrammar FirstFacts ClosureFacts AutoFacts LalrFacts ActFacts GroupFacts CompFacts TabFacts PackFacts LookFacts PipeFacts PackMore Sizes RunFacts FrontFacts
  SoundFacts SafeFacts BuildFacts AbsFacts HaltFacts TermFacts CompleteFacts CleanFacts RefFacts DeclSpec DeclFacts GramFacts LangFacts TypeFacts MeanSpec MeanFacts TypeDecl RunMore Main Claims.
Open Scope string_scope. Open Scope nat_scope. Open Scope list_scope.

(** ** Without conditions on the packed table *)
Section Any.
Context (ds : list decl) (b : built).
Notation g := (bt_grammar b). Notation t := (bt_tables b).
Hypothesis EX : expands ds b.
Notation W := (ex_wf ds b EX).
Notation Au := (ex_aut ds b EX).
Notation ns := (List.length (p_states (bt_auto b))).

Lemma ex_ran : exists fuel ord f, hash_order ord /\ new_from_decls fuel ds = GOk f /\ ran fuel ord f b.
Proof. destruct EX as (fuel & ord & Ho & H). apply build_inv in H as (f & Hf & R). eauto 6. Qed.
Lemma ex_flat : flat_decls ds -> flat g.
Proof. intros HF. destruct (ex_decl ds b EX) as (opts & DE). eapply decls_flat; eauto. apply W. Qed.
Lemma ex_settled' s : s < ns -> settled g (bt_auto b) (bt_acts b) s.
Proof. intros Hs. destruct ex_ran as (fuel & ord & f & _ & _ & R). destruct (find_actions_spec _ W _ Au _ (rn_acts _ _ _ _ R)) as (_ & _ & S3 & _). now apply S3. Qed.

(** C08 *)
Theorem packed_exact : flat_decls ds -> (rows_apart b <-> faithful b).
Proof. intros HF. destruct ex_ran as (fuel & ord & f & _ & _ & R). eapply faithful_iff; eauto using ex_wf, ex_flat. Qed.
Theorem packed_roomy : flat_decls ds -> roomy g (bt_comp b) -> faithful b.
Proof. intros HF. destruct ex_ran as (fuel & ord & f & _ & _ & R). eapply roomy_faithful; eauto using ex_wf, ex_flat. Qed.

(** C09 *)
Theorem entries_fit : flat_decls ds -> (Z.of_nat (t_nsym t) < 2 ^ 31)%Z -> (Z.of_nat (t_nstate t + t_nrule t + 5) < 2 ^ 32)%Z ->
  Forall (fun la => fits_signed (code_bits t) (Z.of_nat la)) (t_lookahead t) /\ Forall (fun r => fits_signed (code_bits t) (Z.of_nat (rr_lhs r))) (t_rules t) /\
  Forall (fun d => fits_unsigned (default_bits t) (Z.of_nat d)) (t_default t).
Proof.
  intros HF H1 H2. destruct ex_ran as (fuel & ord & f & _ & _ & R). pose proof (codes_fit _ _ _ _ R W (ex_flat HF) H1) as [C1 C2]. splits; auto. eapply defaults_fit; eauto using ex_wf, ex_flat.
Qed.
Theorem offsets_small : flat_decls ds -> t_nsym t <= 129 -> (t_shift_max t < 2 ^ 31)%Z -> (t_reduce_max t < 2 ^ 31)%Z ->
  Forall (fits_signed (shift_bits t)) (t_shift_ofst t) /\ Forall (fits_signed (reduce_bits t)) (t_reduce_ofst t).
Proof. intros HF H1 H2 H3. destruct ex_ran as (fuel & ord & f & _ & _ & R). eapply offsets_fit; eauto using ex_wf, ex_flat. Qed.
Theorem offsets_exact : flat_decls ds -> (t_shift_max t < 2 ^ 31)%Z -> (t_reduce_max t < 2 ^ 31)%Z ->
  (forall o, In o (t_shift_ofst t) -> (fits_signed (shift_bits t) o <-> (- 2 ^ (shift_bits t - 1) <= o)%Z)) /\
  (forall o, In o (t_reduce_ofst t) -> (fits_signed (reduce_bits t) o <-> (- 2 ^ (reduce_bits t - 1) <= o)%Z)).
Proof. intros HF H1 H2. destruct ex_ran as (fuel & ord & f & _ & _ & R). eapply offsets_fit_iff; eauto using ex_wf, ex_flat. Qed.

(** C13 *)
Theorem firsts_exact : (forall X, lam_of (fi_lam (bt_firsts b)) X = true <-> nullable g X) /\
  (forall X a, kind_at g X = Some KNonTerm -> (In a (First.first_of (fi_first (bt_firsts b)) X) <-> first g a X)).
Proof. destruct ex_ran as (fuel & ord & f & _ & _ & R). eapply find_first_sets_exact; [apply W|apply (rn_first _ _ _ _ R)]. Qed.

(** C14 *)
Theorem lookaheads_exact s r d a : s < ns -> (look (bt_auto b) s (r, d) a <-> exists gamma, state_of b gamma s /\ lr1 g gamma r d a).
Proof.
  intros Hs. rewrite (lalr_exact g _ Au) by auto. unfold state_of. split; intros (gamma & H1 & H2); exists gamma; auto. now destruct H1.
Qed.
Theorem reductions_offered s r a : s < ns -> a < g_nterm g -> plain ds -> (In (mkAct a (Reduce r)) (s_actions (pstate (bt_acts b) s)) <-> can_reduce b s r a).
Proof.
  intros Hs Ha [HP _]. destruct (ex_decl ds b EX) as (opts & DE). destruct (se_clean _ _ _ _ (ex_settled' s Hs)) as [_ HC].
  - intros r'. exact (decls_clean ds g opts DE HP r').
  - unfold acts in HC. rewrite HC. symmetry. exact (raw_reduce_iff ds b EX s r a Hs Ha).
Qed.

(** C15 *)
Theorem one_live s a d d' : s < ns -> In (mkAct a d) (s_actions (pstate (bt_acts b) s)) -> In (mkAct a d') (s_actions (pstate (bt_acts b) s)) ->
  live d -> live d' -> d = d'.
Proof. intros Hs. apply (gr_live _ _ (settled_grouped g W _ Au _ s (ex_settled' s Hs))). Qed.
End Any.

(** The possible reactions of a state to a token, and the precedence level that speaks for each *)
Inductive choice := ToShift | ToReduce (r : nat).
Definition can (b : built) (s a : nat) (c : choice) : Prop := match c with ToShift => can_shift b s a | ToReduce r => can_reduce b s r a end.
Definition does (b : built) (s a : nat) (c : choice) : Prop := match c with ToShift => says_shift b s a | ToReduce r => says_reduce b s r a end.
Definition level (ds : list decl) (b : built) (a : nat) (c : choice) : option nat :=
  option_map fst (match c with ToShift => assoc_of ds (tok_name b a) | ToReduce r => r_prec (grule (bt_grammar b) r) end).
(** [c] has no more precedence than [w]; both have one. *)
Definition yields_to (ds : list decl) (b : built) (a : nat) (c w : choice) : Prop := exists i j, level ds b a c = Some i /\ level ds b a w = Some j /\ i <= j.
(** A %nonassoc tie *)
Definition tie (ds : list decl) (b : built) (s a : nat) : Prop := can_shift b s a /\ exists r pt pr, can_reduce b s r a /\
  assoc_of ds (tok_name b a) = Some pt /\ r_prec (grule (bt_grammar b) r) = Some pr /\ undecided pt pr.
Definition picks (ds : list decl) (b : built) (s a : nat) (w : choice) : Prop := can b s a w /\ forall c, can b s a c -> c = w \/ yields_to ds b a c w.

Section Build.
Context (ds : list decl) (b : built).
Notation g := (bt_grammar b). Notation t := (bt_tables b).
Hypothesis EX : expands ds b.
Hypothesis US : usable ds b.
Notation P := (ex_pipe ds b EX US).
Notation Au := (ex_aut ds b EX).
Notation W := (ex_wf ds b EX).
Notation ns := (List.length (p_states (bt_auto b))).

Definition of_choice (q : nat) (c : choice) : detail := match c with ToShift => Shift q | ToReduce r => Reduce r end.
Lemma can_raw s a c : s < ns -> a < g_nterm g -> can b s a c -> exists q, raw g (bt_auto b) s a (of_choice q c).
Proof.
  intros Hs Ha. destruct c as [|r]; cbn; intros H.
  - now apply (raw_shift_iff ds b EX s a Hs Ha) in H.
  - exists 0. now apply (raw_reduce_iff ds b EX s r a Hs Ha) in H.
Qed.
Lemma raw_can s a d : s < ns -> a < g_nterm g -> raw g (bt_auto b) s a d -> exists q c, d = of_choice q c /\ can b s a c.
Proof.
  intros Hs Ha H. inversion H as [X q m He Hc|r b' Hl Lb|]; subst.
  - exists q, ToShift. split; auto. apply (raw_shift_iff ds b EX s a Hs Ha). eauto.
  - exists 0, (ToReduce r). split; auto. now apply (raw_reduce_iff ds b EX s r a Hs Ha).
  - exfalso. pose proof (proj1 (wg_start g W)) as K. apply (wg_nonterm g W) in K. lia.
Qed.
Lemma level_eq a q c : 0 < a < g_nterm g -> plevel g a (of_choice q c) = level ds b a c.
Proof. intros Ha. destruct c as [|r]; cbn; auto. now rewrite (tok_prec ds b EX US) by auto. Qed.

(** The survivor of the conflicts on [a] in [s] *)
Lemma choice_made s a : s < ns -> 0 < a < g_nterm g -> (exists c, can b s a c) -> exists q w, In (mkAct a (of_choice q w)) (acts (bt_acts b) s) /\ picks ds b s a w.
Proof.
  intros Hs Ha (c & Hc). destruct (can_raw s a c Hs (proj2 Ha) Hc) as (q0 & Hr).
  assert (Ns : a <> g_start g) by (intros ->; pose proof (proj1 (wg_start g W)) as K; apply (wg_nonterm g W) in K; lia).
  pose proof (ex_settled ds b EX US s Hs) as SE.
  destruct (survivor_max g _ _ s SE a _ Ns Hr) as (d & Hd & Hin & Hl & _). destruct (raw_can s a d Hs (proj2 Ha) Hd) as (q & w & -> & Hw).
  exists q, w. splits; auto. split; auto. intros c' Hc'. destruct (can_raw s a c' Hs (proj2 Ha) Hc') as (q' & Hr').
  destruct (survivor_max g _ _ s SE a _ Ns Hr') as (d' & Hd' & Hin' & Hl' & Hcmp).
  assert (d' = of_choice q w) by (apply (gr_live _ _ (settled_grouped g W _ Au _ s SE)) with a; auto). subst d'.
  destruct Hcmp as [E|(i & j & E1 & E2 & L)].
  - left. destruct c', w; cbn in E; congruence.
  - right. exists i, j. rewrite level_eq in E1, E2 by auto. auto.
Qed.
Lemma picks_one s a w w' : picks ds b s a w -> picks ds b s a w' -> w = w' \/ yields_to ds b a w w' /\ yields_to ds b a w' w.
Proof. intros [H1 H2] [H1' H2']. destruct (H2 _ H1') as [->|Y]; auto. destruct (H2' _ H1) as [->|Y']; auto. Qed.

Lemma does_lookup s a q w : s < ns -> a < g_nterm g -> raw g (bt_auto b) s a (of_choice q w) ->
  find_shift_action t (state_num g (bt_comp b) s) a = LAct (TabFacts.code ns (List.length (g_rules g)) (state_num g (bt_comp b)) (of_choice q w)) -> does b s a w.
Proof.
  intros Hs Ha Hr H. destruct w as [|r]; cbn [does of_choice TabFacts.code] in *.
  - eapply shift_state; eauto.
  - unfold says_reduce. now rewrite H, (t_ns _ _ _ _ _ P).
Qed.

(** C15, C17: of the reactions of a state to a token one is chosen by precedence and
    performed, unless a %nonassoc tie makes the token an error; %fallback plays no part. *)
Theorem own_action s a c : s < ns -> 0 < a < g_nterm g -> can b s a c -> wildcard_of ds = None ->
  exists w, picks ds b s a w /\ (~ tie ds b s a -> does b s a w) /\ (does b s a w \/ tie ds b s a /\ (fallback_of ds (tok_name b a) = None -> says_error b s a)).
Proof.
  intros Hs Ha Hc Hw. destruct (choice_made s a Hs Ha) as (q & w & Hin & Hp); eauto. exists w. split; auto.
  pose proof (ex_settled ds b EX US s Hs) as SE. assert (Hl : live (of_choice q w)) by (destruct w; exact I).
  pose proof (settled_raw g _ _ s a _ SE Hin Hl) as Hraw.
  assert (HD : {In (mkAct a Error) (acts (bt_acts b) s)} + {~ In (mkAct a Error) (acts (bt_acts b) s)}).
  { apply in_dec. decide equality; try apply Nat.eq_dec. decide equality; try apply Nat.eq_dec. }
  destruct HD as [HE|HE].
  - assert (HT : tie ds b s a).
    { destruct (error_src _ _ _ _ _ P s a Hs HE) as ((q' & Rq) & (r & Rr & l & ac & Hpt & Hpr) & _). split; [apply (raw_shift_iff ds b EX s a Hs); eauto; lia|].
      rewrite (tok_prec ds b EX US) in Hpt by auto. exists r, (l, ANone), (l, ac). splits; auto; [apply (raw_reduce_iff ds b EX s r a Hs); auto; lia|split; auto]. }
    split; [tauto|]. right. split; auto. intros Hf. eapply error_says; eauto.
  - assert (HD : does b s a w).
    { eapply (does_lookup s a q w); eauto; [lia|]. apply (decided_lookup _ _ _ _ _ P); auto; [left; lia|unfold decided; splits; auto|left; now apply (no_wild ds b EX)]. }
    auto.
Qed.

Lemma tok_at k : k < g_nterm g -> at_name g k (tok_name b k).
Proof.
  intros Lk. rewrite (name_eq ds b EX US) by auto. pose proof (wg_dflt_range g W). exists (gsym g k). split; [apply nth_error_nth'; lia|reflexivity].
Qed.
Lemma tok_nonempty k : k < g_nterm g -> tok_name b k <> "".
Proof.
  intros Lk E. destruct (tok_at k Lk) as (sy & Hsy & En). rewrite E in En. destruct (ex_decl ds b EX) as (opts & DE). destruct (de_anon _ _ _ DE _ _ Hsy En) as (_ & _ & (ms & K) & _).
  pose proof (wg_dflt_range g W) as HR. assert (K' : kind_at g k = Some KTerm) by (apply (wg_term g W); lia). unfold kind_at in K'. rewrite Hsy in K'. cbn in K'. congruence.
Qed.

(** C17: a token the state has no reaction to is treated as the token it falls back to. *)
Theorem fallback_used s a n : s < ns -> 0 < a < g_nterm g -> (forall c, ~ can b s a c) -> fallback_of ds (tok_name b a) = Some n ->
  exists f, 0 < f < List.length (g_syms g) /\ gname g f = n /\ find_shift_action t (state_num g (bt_comp b) s) a = find_shift_action t (state_num g (bt_comp b) s) f.
Proof.
  intros Hs Ha Hc Hf. pose proof (tok_fb ds b EX US a Ha) as HF. rewrite Hf in HF. destruct (sy_fb (gsym g a)) as [f|] eqn:Ef; [|discriminate]. injection HF as HF.
  pose proof (fb_nz g W _ _ Ef). exists f. splits; auto; [lia| |].
  - destruct (wg_fb g W a (gsym g a) f) as (_ & ? & _); auto. apply nth_error_nth'. pose proof (wg_dflt_range g W). lia.
  - apply (absent_lookup _ _ _ _ _ P); auto; [left; lia|lia|]. intros d Hin. destruct (settled_src g _ _ s (ex_settled ds b EX US s Hs) a d Hin) as (d0 & Hr & _).
    destruct (raw_can s a d0 Hs (proj2 Ha) Hr) as (q & c & _ & Hcan). eapply Hc; eauto.
Qed.

(** C18: a token that can be shifted is, whatever the wildcard; and a state that can shift the
    wildcard uses it only for tokens it has no reaction to. *)
Theorem own_over_wildcard s a w : s < ns -> 0 < a < g_nterm g -> picks ds b s a w -> (forall w', picks ds b s a w' -> w' = w) -> ~ tie ds b s a ->
  (w = ToShift \/ exists k, 0 < k < g_nterm g /\ wildcard_of ds = Some (tok_name b k) /\ fallback_of ds (tok_name b k) = None /\ can_shift b s k /\ forall w', picks ds b s k w' -> w' = ToShift) ->
  does b s a w.
Proof.
  intros Hs Ha Hp Hu HT Hk. destruct (choice_made s a Hs Ha) as (q & w' & Hin & Hp'); [destruct Hp; eauto|]. assert (w' = w) by auto. subst w'.
  assert (Hl : live (of_choice q w)) by (destruct w; exact I). pose proof (ex_settled ds b EX US s Hs) as SE. pose proof (settled_raw g _ _ s a _ SE Hin Hl) as Hraw.
  assert (HE : ~ In (mkAct a Error) (acts (bt_acts b) s)).
  { intros HE. apply HT. destruct (error_src _ _ _ _ _ P s a Hs HE) as ((q' & Rq) & (r & Rr & l & ac & Hpt & Hpr) & _). split; [apply (raw_shift_iff ds b EX s a Hs); eauto; lia|].
    rewrite (tok_prec ds b EX US) in Hpt by auto. exists r, (l, ANone), (l, ac). splits; auto; [apply (raw_reduce_iff ds b EX s r a Hs); auto; lia|split; auto]. }
  apply (does_lookup s a q w); auto; [lia|]. destruct Hk as [->|(k & Lk & Hw & Hf & Hk & Hnr)].
  - apply (decided_lookup _ _ _ _ _ P); auto; [left; lia|unfold decided; splits; auto|right; exists q; auto].
  - destruct (choice_made s k Hs Lk) as (q' & wk & Hink & Hpk); [exists ToShift; auto|]. apply Hnr in Hpk. subst wk.
    apply (decided_wild _ _ _ _ _ P s a _ k q'); auto; [left; lia|unfold decided; splits; auto| |].
    + destruct (ex_decl ds b EX) as (opts & DE). pose proof (de_wild _ _ _ DE) as D. rewrite Hw in D. destruct (g_wild g) as [i|]; [|destruct D]. f_equal. cbn in D.
      eapply (de_uniq _ _ _ DE); [exact D|apply tok_at|apply tok_nonempty]; auto; lia.
    + pose proof (tok_fb ds b EX US k Lk) as HF. rewrite Hf in HF. now destruct (sy_fb (gsym g k)).
Qed.
End Build.
