(** For each theorem of Properties.v a concrete case that meets its hypotheses, mostly the
    grammars of the repository's tests, the README and examples/json.rs. *)
From Coq Require Import Permutation.
From Verif Require Import Base Syntax BaseFacts FrontEnd First States Actions Tables Runtime User Spec WfGrammar ClosureFacts AutoFacts LalrFacts ActFacts TabFacts PackFacts PackMore Sizes
  PipeFacts BuildFacts RunFacts SoundFacts DeclSpec LangFacts MeanSpec TypeDecl Main Claims Claims2 DeclMore Claims3 Claims4 Names Claims5 Claims6 ExpandFacts PanicFacts Claims7 Claims8
  TreeSpec Claims9 CycleSpec Claims10 Claims12 SourceText SourceFacts Claims11 Refutations3 FaultSpec FaultBack FaultNone PrecSpec Session TimeSpec Claims18 TokenText Claims19 MendSpec MendFacts Claims20 Claims21 OrderSpec OrderFacts IsoFacts OrderIso Claims22 Claims23 Report ReportSpec ReportFacts Demo Refutations RepoTests Checks.
From Verif Require Import Rename RenameBack Claims24 Letters Claims25 Claims26 ChooseSpec Claims27 Claims28 BlockIso Claims30 Claims31.
From Verif Require Claims13.
Open Scope string_scope. Open Scope nat_scope. Open Scope list_scope.

Lemma ida_order : hash_order ida. Proof. intros l. apply Permutation_refl. Qed.
Lemma rev_order : hash_order (fun l => rev l). Proof. intros l. apply Permutation_sym, Permutation_rev. Qed.
Lemma expands_by ds b : build 300 ida ds = GOk b -> expands ds b.
Proof. intros H. exists 300, ida. split; auto using ida_order. Qed.

(** ** Computing what can be done in a state *)
Definition covers_b (g : grammar) (X a : nat) : bool := match kind_at g X with Some (KMulti ms) => existsb (Nat.eqb a) ms | _ => a =? X end.
Lemma covers_b_ok g X a : covers_b g X a = true <-> covers g X a.
Proof.
  unfold covers_b, covers. destruct (kind_at g X) as [[| |ms]|]; try apply Nat.eqb_eq. rewrite existsb_exists. split; [intros (m & H & E); apply Nat.eqb_eq in E; now subst|]. intros H. exists a. split; auto. apply Nat.eqb_refl.
Qed.
Definition key_eqb (a b : nat * nat) : bool := (fst a =? fst b) && (snd a =? snd b).
Lemma key_eqb_ok a b : key_eqb a b = true <-> a = b.
Proof. destruct a, b. unfold key_eqb. cbn. rewrite andb_true_iff, !Nat.eqb_eq. split; [intros [-> ->]; auto|]. intros E. injection E as -> ->. auto. Qed.
Definition look_b (p : pst) (s : nat) (k : nat * nat) (a : nat) : bool :=
  existsb (fun c => key_eqb (ckey (p_cfgs p) c) k && existsb (Nat.eqb a) (c_fws (cfg (p_cfgs p) c))) (s_configs (pstate p s)).
Lemma look_b_ok p s k a : s < List.length (p_states p) -> look_b p s k a = true <-> look p s k a.
Proof.
  intros Hs. unfold look_b, look, pstate. destruct (nth_error (p_states p) s) as [st|] eqn:E; [|apply nth_error_None in E; lia]. rewrite (nth_error_nth _ _ _ E), existsb_exists. split.
  - intros (c & Hc & H). apply andb_true_iff in H as [H1 H2]. apply key_eqb_ok in H1. apply existsb_exists in H2 as (a' & Ha & Ea). apply Nat.eqb_eq in Ea. subst. eauto 6.
  - intros (st' & c & E' & Hc & Hk & Ha). injection E' as <-. exists c. split; auto. apply andb_true_iff. split; [now apply key_eqb_ok|]. apply existsb_exists. exists a. split; auto. apply Nat.eqb_refl.
Qed.
Definition shift_b (b : built) (s a : nat) : bool :=
  existsb (fun c => match kpost (bt_grammar b) (ckey (p_cfgs (bt_auto b)) c) with Some X => covers_b (bt_grammar b) X a | None => false end) (s_configs (pstate (bt_auto b) s)).
Definition reduce_b (b : built) (s r a : nat) : bool := look_b (bt_auto b) s (r, List.length (r_rhs (grule (bt_grammar b) r))) a.

Section Doing.
Context (ds : list decl) (b : built).
Hypothesis EX : expands ds b.

Notation g := (bt_grammar b).
Lemma shift_b_ok s a : s < List.length (p_states (bt_auto b)) -> a < g_nterm g -> shift_b b s a = true <-> can_shift b s a.
Proof.
  intros Hs Ha. pose proof (ex_aut ds b EX) as A. rewrite (raw_shift_iff ds b EX) by auto. unfold shift_b. rewrite existsb_exists. unfold pstate. destruct (nth_error (p_states (bt_auto b)) s) as [st|] eqn:E; [|apply nth_error_None in E; lia].
  rewrite (nth_error_nth _ _ _ E). split.
  - intros (c & Hc & H). destruct (kpost g _) as [X|] eqn:K; [|discriminate]. destruct (au_next g _ A s (ckey (p_cfgs (bt_auto b)) c) X) as (q & Hq); auto; [exists st, c; auto|]. exists q. econstructor; eauto. now apply covers_b_ok.
  - intros (q & H). inversion H as [X t0 m He Hc| |]; subst. destruct (au_edge g _ A _ _ _ He) as (_ & k & (st' & c & E' & Hi & Hk) & HK). rewrite E in E'. injection E' as <-. exists c. split; auto. rewrite Hk, HK. now apply covers_b_ok.
Qed.
Lemma reduce_b_ok s r a : s < List.length (p_states (bt_auto b)) -> a < g_nterm g -> reduce_b b s r a = true <-> can_reduce b s r a.
Proof.
  intros Hs Ha. rewrite (raw_reduce_iff ds b EX) by auto. unfold reduce_b. rewrite look_b_ok by auto. split; [intros H; now constructor|]. intros H. inversion H; subst; auto.
Qed.
Lemma reduce_only s a l : s < List.length (p_states (bt_auto b)) -> a < g_nterm g ->
  filter (fun r => reduce_b b s r a) (seq 0 (List.length (g_rules g))) = l -> forall r, can_reduce b s r a -> In r l.
Proof.
  intros Hs Ha <- r H. apply filter_In. split; [|now apply reduce_b_ok]. destruct H as (_ & ru & _ & H & _). apply in_seq. assert (r < List.length (g_rules g)) by (apply nth_error_Some; congruence). lia.
Qed.
End Doing.

(** A run, decided *)
Definition ran_ok {V X E} (n : nat) (t : tables) (sm : sem V X E) (x : X) (ks : list (token V)) : option (V * X * bool) :=
  match api_run n t sm x ks with ROk (v, x') p => Some (v, x', dropped_b p) | _ => None end.
Lemma ran_ok_run {V X E} n t (sm : sem V X E) x ks v x' : ran_ok n t sm x ks = Some (v, x', false) -> exists pp, api_run n t sm x ks = ROk (v, x') pp /\ ~ dropped pp.
Proof.
  unfold ran_ok. destruct (api_run n t sm x ks) as [[v0 x0] p| | |]; try discriminate. intros H. injection H as -> -> H. exists p. split; auto. intros (a & Ha).
  assert (dropped_b p = true); [|congruence]. apply existsb_exists. eauto.
Qed.
Lemma taken_eq ds a c : plain ds -> no_fallback ds -> taken ds a c -> a = c.
Proof. intros [_ Hw] Hf [H|H]; [now apply (falls_none ds)|congruence]. Qed.
(** Without fallbacks and wildcard, what the parser found is a reading. *)
Lemma run_means ds b (EX : expands ds b) (US : usable ds b) {V X E} n (sm : sem V X E) x ks v x' : plain ds -> no_fallback ds -> tokens_wf b ks ->
  ran_ok n (bt_tables b) sm x ks = Some (v, x', false) -> exists s v0, start_of ds = Some s /\ means ds sm eq s (reading b sm ks) x x' v0 /\ v = root_value ds sm s v0.
Proof.
  intros HP HF HT H. apply ran_ok_run in H as (pp & H & Hd). destruct (accepted_means ds b EX US sm n x ks v x' pp HT H Hd) as (s & v0 & Hs & Hm & Hr). exists s, v0. splits; auto.
  eapply means_tk; [|exact Hm]. intros a c. now apply taken_eq.
Qed.

(** ** examples/json.rs *)
Definition json_b : built := Eval vm_compute in get (build 300 ida json).
Lemma json_expands : expands json json_b. Proof. apply expands_by. vm_compute. reflexivity. Qed.
Lemma json_usable : usable json json_b. Proof. apply fine_b_ok. vm_compute. reflexivity. Qed.
Lemma json_plain : Main.plain json. Proof. apply plain_b_ok. vm_compute. reflexivity. Qed.
Lemma json_no_fallback : no_fallback json. Proof. unfold no_fallback. apply no_fallback_b_ok. vm_compute. reflexivity. Qed.
Lemma json_types : types_ok json. Proof. apply types_b_ok. vm_compute. reflexivity. Qed.
Lemma json_say : all_say json. Proof. apply (all_say_b_ok 20). vm_compute. reflexivity. Qed.
Lemma json_start : start_of json = Some "start". Proof. reflexivity. Qed.
Definition tks (b : built) (l : list (string * option tval)) : list (token tval) := map (tk (bt_tables b)) l.
(** { "a" : [1, true] } *)
Definition json_in1 := tks json_b [u "LBrace"; d "JString" (TStr "a"); u "Colon"; u "LBracket"; d "JNumber" (TInt 1)].
Definition json_in2 := tks json_b [u "Comma"; u "JTrue"; u "RBracket"; u "RBrace"].
Definition json_val := TUn "dict" (TSeq [TPair (TStr "a") (TUn "array" (TSeq [TInt 1; TStr "true"]))]).
Lemma json_wf : tokens_wf json_b (json_in1 ++ json_in2). Proof. apply tokens_wf_b_ok. vm_compute. reflexivity. Qed.
(** C01 *)
Example C01_case : expands json json_b /\ usable json json_b /\ tokens_wf json_b (json_in1 ++ json_in2) /\
  exists pp, api_run 300 (bt_tables json_b) json_sem [] (json_in1 ++ json_in2) = ROk (json_val, []) pp /\ ~ dropped pp.
Proof. splits; auto using json_expands, json_usable, json_wf. apply ran_ok_run. vm_compute. reflexivity. Qed.
(** C02, C03, C05, C31: what is read is a reading *)
Example C02_case : Main.plain json /\ types_ok json /\ start_of json = Some "start" /\ means json json_sem eq "start" (reading json_b json_sem (json_in1 ++ json_in2)) [] [] json_val.
Proof.
  splits; auto using json_plain, json_types. destruct (run_means json json_b json_expands json_usable 300 json_sem [] (json_in1 ++ json_in2) json_val [] json_plain json_no_fallback json_wf) as (s & v0 & Hs & Hm & Hr); [vm_compute; reflexivity|].
  rewrite json_start in Hs. injection Hs as <-. assert (E : root_value json json_sem "start" v0 = v0) by (vm_compute; reflexivity). rewrite E in Hr. now subst.
Qed.
(** C04: the first five tokens are consumed *)
Example C04_case : all_say json /\ tokens_wf json_b json_in1 /\ exists pp,
  parse_all 300 (bt_tables json_b) (user_hooks (bt_tables json_b) json_sem) (new_parser (user_hooks (bt_tables json_b) json_sem) []) (map (token_value (bt_tables json_b) json_sem) json_in1) = ROk tt pp /\ ~ dropped pp.
Proof.
  splits; auto using json_say. { apply tokens_wf_b_ok. vm_compute. reflexivity. }
  match goal with |- exists pp, ?r = _ /\ _ => destruct r as [u0 pp| | |] eqn:E; try (vm_compute in E; discriminate) end. destruct u0. exists pp. split; auto.
  intros (a & Ha). vm_compute in E. injection E as <-. vm_compute in Ha. repeat destruct Ha as [Ha|Ha]; discriminate || contradiction.
Qed.
(** C06, C07: a wrong input ends in the error of %syntax_error *)
Definition json_bad := tks json_b [u "LBrace"; u "JTrue"; u "RBrace"].
Example C06_case : tokens_wf json_b json_bad /\ exists pp, api_run 300 (bt_tables json_b) json_sem [] json_bad = RErr "syntax" pp.
Proof. split; [apply tokens_wf_b_ok; vm_compute; reflexivity|]. eexists. vm_compute. reflexivity. Qed.
(** C08, C09 *)
Definition roomy_b (g : grammar) (p : pst) : bool :=
  forallb (fun s => forallb (fun w => match aset g p s w with [] => true | e :: l => negb (sole (fst e) (e :: l)) || (fst e =? 0) || (eoi_rows g p <? fst e) end) [true; false]) (seq 0 (List.length (p_states p))).
Lemma roomy_b_ok g p : roomy_b g p = true -> roomy g p.
Proof.
  unfold roomy_b. intros H s w m Hs Hm. rewrite forallb_forall in H. specialize (H s (proj2 (in_seq _ _ _) (conj (Nat.le_0_l _) Hs))). rewrite forallb_forall in H.
  specialize (H w). assert (Hw : In w [true; false]) by (destruct w; cbn; auto). apply H in Hw. destruct (aset g p s w) as [|e l] eqn:E; [discriminate|]. pose proof Hm as Hm'. apply sole_iff in Hm as [_ Hm].
  rewrite (Hm e (or_introl eq_refl)) in Hw. rewrite Hm' in Hw. cbn [negb orb] in Hw. apply orb_true_iff in Hw as [Hw|Hw]; [left; now apply Nat.eqb_eq|right; now apply Nat.ltb_lt].
Qed.
Example C08_case : flat_decls json /\ rows_apart json_b /\ roomy (bt_grammar json_b) (bt_comp json_b).
Proof. splits; [apply json_usable|apply json_usable|apply roomy_b_ok; vm_compute; reflexivity]. Qed.
Example C09_case : t_nsym (bt_tables json_b) = 23 /\ (Z.of_nat (t_nsym (bt_tables json_b)) < 2 ^ 31)%Z /\ (Z.of_nat (t_nstate (bt_tables json_b) + t_nrule (bt_tables json_b) + 5) < 2 ^ 32)%Z /\
  (t_shift_max (bt_tables json_b) < 2 ^ 31)%Z /\ (t_reduce_max (bt_tables json_b) < 2 ^ 31)%Z.
Proof. vm_compute. splits; reflexivity. Qed.

(** ** pass/tree.rs: precedences *)
Definition tree_b : built := Eval vm_compute in get (build 300 ida tree).
Lemma tree_expands : expands tree tree_b. Proof. apply expands_by. vm_compute. reflexivity. Qed.
Lemma tree_usable : usable tree tree_b. Proof. apply fine_b_ok. vm_compute. reflexivity. Qed.
Ltac small := vm_compute; repeat constructor.
Ltac doing EX := first [apply (reduce_b_ok _ _ EX)|apply (shift_b_ok _ _ EX)]; [small|small|vm_compute; reflexivity].
Ltac no_other EX l := let r := fresh "r" in let H := fresh "H" in intros r H; apply (reduce_only _ _ EX _ _ l) in H; [cbn [In] in H; repeat (destruct H as [H|H]); subst; auto; contradiction|small|small|vm_compute; reflexivity].
(** After [tree Plus tree] (state 17): Mult (4) is shifted, Plus (2) reduces *)
Example C10_case : forall a, a = 2 \/ a = 4 -> 17 < List.length (p_states (bt_auto tree_b)) /\ 0 < a < g_nterm (bt_grammar tree_b) /\ can_shift tree_b 17 a /\ can_reduce tree_b 17 3 a /\ (forall r', can_reduce tree_b 17 r' a -> r' = 3).
Proof. intros a [->| ->]; (splits; [small|small|small|doing tree_expands|doing tree_expands|no_other tree_expands [3]]). Qed.
(** What the theorem then gives *)
Example C10_shown : says_shift tree_b 17 4 /\ says_reduce tree_b 17 3 2.
Proof.
  destruct (C10_case 4 (or_intror eq_refl)) as (H1 & H2 & H3 & H4 & H5). destruct (shift_reduce _ _ tree_expands tree_usable 17 4 3 H1 H2 H3 H4 H5) as (pt & pr & Ht & Hr & Hs & _).
  destruct (C10_case 2 (or_introl eq_refl)) as (K1 & K2 & K3 & K4 & K5). destruct (shift_reduce _ _ tree_expands tree_usable 17 2 3 K1 K2 K3 K4 K5) as (pt' & pr' & Ht' & Hr' & _ & Hs' & _).
  vm_compute in Ht, Hr, Ht', Hr'. injection Ht as <-. injection Hr as <-. injection Ht' as <-. injection Hr' as <-. split; [apply Hs; left; cbn; lia|apply Hs'; [right; split; reflexivity|reflexivity]].
Qed.
(** C12: a %nonassoc operator; after [e Eq e] (state 3) the token Eq is an error *)
Definition nonassoc := [DAssoc ANone ["Eq"]; rl "input" ["e"] 1; rl "e" ["e"; "Eq"; "e"] 2; rl "e" ["N"] 3].
Definition nonassoc_b : built := Eval vm_compute in get (build 300 ida nonassoc).
Lemma nonassoc_expands : expands nonassoc nonassoc_b. Proof. apply expands_by. vm_compute. reflexivity. Qed.
Lemma nonassoc_usable : usable nonassoc nonassoc_b. Proof. apply fine_b_ok. vm_compute. reflexivity. Qed.
Example C12_case : can_shift nonassoc_b 3 1 /\ can_reduce nonassoc_b 3 1 1 /\ (forall r', can_reduce nonassoc_b 3 r' 1 -> r' = 1) /\ assoc_of nonassoc (tok_name nonassoc_b 1) = Some (1, ANone) /\ says_error nonassoc_b 3 1.
Proof. splits; [doing nonassoc_expands|doing nonassoc_expands|no_other nonassoc_expands [1]|reflexivity|vm_compute; reflexivity]. Qed.
Example C12_tie_case : tie nonassoc nonassoc_b 3 1 /\ (forall r, can_reduce nonassoc_b 3 r 1 -> yields_to nonassoc nonassoc_b 1 (ToReduce r) ToShift) /\ wildcard_of nonassoc = None /\ fallback_of nonassoc (tok_name nonassoc_b 1) = None.
Proof.
  destruct C12_case as (H1 & H2 & H3 & _). splits; try reflexivity.
  - split; [exact H1|]. exists 1, (1, ANone), (1, ANone). splits; auto; vm_compute; auto.
  - intros r Hr. rewrite (H3 r Hr). exists 1, 1. splits; vm_compute; auto.
Qed.
(** C11: two rules for one token, of different precedence *)
Definition two_rules := map (fun n => DType 0 n None) ["Z1"; "Z2"; "Z3"; "Z4"; "Z5"; "Z6"] ++ [DAssoc ALeft ["P1"]; DAssoc ALeft ["P2"];
  rl "input" ["x"; "E"] 1; rl "input" ["y"; "E"] 2; rp "x" ["A"] 3 "P1"; rp "y" ["A"] 4 "P2"; rl "input" ["x"; "P1"] 5].
Definition two_rules_b : built := Eval vm_compute in get (build 300 ida two_rules).
Lemma two_rules_expands : expands two_rules two_rules_b. Proof. apply expands_by. vm_compute. reflexivity. Qed.
Lemma two_rules_usable : usable two_rules two_rules_b. Proof. apply fine_b_ok. vm_compute. reflexivity. Qed.
Ltac no_shift EX := let H := fresh "H" in intros H; apply (shift_b_ok _ _ EX) in H; [vm_compute in H; discriminate|small|small].
Example C11_case : 6 < List.length (p_states (bt_auto two_rules_b)) /\ 0 < 9 < g_nterm (bt_grammar two_rules_b) /\ can_reduce two_rules_b 6 2 9 /\ can_reduce two_rules_b 6 3 9 /\ ~ can_shift two_rules_b 6 9 /\
  (forall r', can_reduce two_rules_b 6 r' 9 -> r' = 2 \/ r' = 3) /\ says_reduce two_rules_b 6 3 9.
Proof. splits; [small|small|small|doing two_rules_expands|doing two_rules_expands|no_shift two_rules_expands|no_other two_rules_expands [2; 3]|vm_compute; reflexivity]. Qed.
(** C13, C14: [numbers?] can be empty and begins with Number; in the README grammar the rule for
    one Number is reduced on a Comma *)
Definition readme_b : built := Eval vm_compute in get (build 300 ida readme).
Lemma readme_expands : expands readme readme_b. Proof. apply expands_by. vm_compute. reflexivity. Qed.
Lemma readme_usable : usable readme readme_b. Proof. apply fine_b_ok. vm_compute. reflexivity. Qed.
Lemma readme_plain : Main.plain readme. Proof. apply plain_b_ok. vm_compute. reflexivity. Qed.
Lemma readme_types : types_ok readme. Proof. apply types_b_ok. vm_compute. reflexivity. Qed.
Example C13_case : map sy_name (g_syms (bt_grammar readme_b)) = ["$"; "Number"; "Comma"; "error"; "input"; "numbers"; "_0"; "{default}"] /\
  map (lam_of (fi_lam (bt_firsts readme_b))) [4; 5; 6] = [true; false; true] /\ map (First.first_of (fi_first (bt_firsts readme_b))) [4; 5; 6] = [[1]; [1]; [1]].
Proof. vm_compute. splits; reflexivity. Qed.
Example C14_case : exists s, s < List.length (p_states (bt_auto readme_b)) /\ look (bt_auto readme_b) s (1, 1) 2 /\ look (bt_auto readme_b) s (1, 1) 0 /\ ~ look (bt_auto readme_b) s (1, 1) 1 /\ can_reduce readme_b s 1 2.
Proof.
  exists 2. splits; [small|apply look_b_ok; [small|reflexivity]|apply look_b_ok; [small|reflexivity]|intros H; apply look_b_ok in H; [discriminate|small]|doing readme_expands].
Qed.
(** C15, C34, C35: the documented choice is made in tree.rs *)
Example C15_case : picks tree tree_b 17 4 ToShift /\ In (mkAct 2 (Reduce 3)) (acts (bt_acts tree_b) 17).
Proof.
  split; [|vm_compute; tauto]. split; [doing tree_expands|]. intros [|r] H; [auto|right]. assert (r = 3) by (revert r H; no_other tree_expands [3]). subst. exists 1, 2. splits; try reflexivity. lia.
Qed.
Example C34_case : nth_error (rules_in tree) 7 = Some (mkDr "tree" [sy "Minus"; al "tree"] (Some 8) (Some "Unary")) /\ prec_of tree (mkDr "tree" [sy "Minus"; al "tree"] (Some 8) (Some "Unary")) = Some (3, ANone) /\
  assoc_of tree "Plus" = Some (1, ALeft) /\ assoc_of tree "Mult" = Some (2, ALeft).
Proof. splits; reflexivity. Qed.
(** 1 + 2 * 3 *)
Definition tree_in := tks tree_b [I 1; P; I 2; Mu; I 3].
Example C35_case : wildcard_of tree = None /\ (forall a l, assoc_of tree a = Some (l, ANone) -> fallback_of tree a = None) /\ tokens_wf tree_b tree_in /\
  exists pp, api_run 300 (bt_tables tree_b) tree_sem [] tree_in = ROk (TBin "+" (TInt 1) (TBin "*" (TInt 2) (TInt 3)), []) pp /\ ~ dropped pp.
Proof. splits; [reflexivity|intros a l _; reflexivity|apply tokens_wf_b_ok; vm_compute; reflexivity|apply ran_ok_run; vm_compute; reflexivity]. Qed.

(** ** C16, C17: fallbacks *)
Definition chain := [DFallback "Two" ["One"]; DFallback "Three" ["Two"]; rn "input" [sy "Three"; sy "One"]].
Definition chain_b : built := Eval vm_compute in get (build 300 ida chain).
Example C16_case : expands chain chain_b /\ no_self_fallback chain /\ fallback_of chain "One" = Some "Two" /\ follow chain 2 "One" = Some "Three" /\ follow chain 3 "One" = None.
Proof. splits; [apply expands_by; vm_compute; reflexivity|apply no_self_b_ok; reflexivity|reflexivity|reflexivity|reflexivity]. Qed.
Definition fb_b : built := Eval vm_compute in get (build 300 ida fallback1).
Lemma fb_expands : expands fallback1 fb_b. Proof. apply expands_by. vm_compute. reflexivity. Qed.
Lemma fb_usable : usable fallback1 fb_b. Proof. apply fine_b_ok. vm_compute. reflexivity. Qed.
Ltac nothing EX := let c := fresh "c" in let r := fresh "r" in intros [|r] c; [revert c; no_shift EX|revert r c; no_other EX (@nil nat)].
(** In the first state Three (3) has its own action though it falls back to Fallback (4); One (1)
    has none and is taken for Fallback *)
Example C17_case : map (tok_name fb_b) [1; 3; 4] = ["One"; "Three"; "Fallback"] /\ 0 < List.length (p_states (bt_auto fb_b)) /\ can fb_b 0 3 ToShift /\ fallback_of fallback1 "Three" = Some "Fallback" /\ wildcard_of fallback1 = None /\
  (forall c, ~ can fb_b 0 1 c) /\ fallback_of fallback1 (tok_name fb_b 1) = Some "Fallback" /\ can fb_b 0 4 ToShift.
Proof. splits; [reflexivity|small|doing fb_expands|reflexivity|reflexivity|nothing fb_expands|reflexivity|doing fb_expands]. Qed.

(** ** C18: wildcard *)
Definition wild := map (fun n => DType 0 n None) ["Z1"; "Z2"; "Z3"; "Z4"] ++ [DWildcard "WC"; rn "input" [sy "x"; sy "One"; sy "Two"]; rn "input" [sy "A"; sy "WC"; sy "One"]; rn "x" [sy "A"]].
Definition wild_b : built := Eval vm_compute in get (build 300 ida wild).
Lemma wild_expands : expands wild wild_b. Proof. apply expands_by. vm_compute. reflexivity. Qed.
Lemma wild_usable : usable wild wild_b. Proof. apply fine_b_ok. vm_compute. reflexivity. Qed.
(** After A (state 4) the wildcard WC (5) can be shifted and rule 2 is reduced on One (6) *)
Example C18_case : 4 < List.length (p_states (bt_auto wild_b)) /\ picks wild wild_b 4 6 (ToReduce 2) /\ (forall w', picks wild wild_b 4 6 w' -> w' = ToReduce 2) /\ ~ tie wild wild_b 4 6 /\
  wildcard_of wild = Some (tok_name wild_b 5) /\ fallback_of wild (tok_name wild_b 5) = None /\ can_shift wild_b 4 5 /\ (forall w', picks wild wild_b 4 5 w' -> w' = ToShift) /\ does wild_b 4 6 (ToReduce 2).
Proof.
  assert (N6 : ~ can_shift wild_b 4 6) by no_shift wild_expands. assert (R6 : forall r, can_reduce wild_b 4 r 6 -> r = 2) by no_other wild_expands [2].
  assert (R5 : forall r, can_reduce wild_b 4 r 5 -> False) by no_other wild_expands (@nil nat).
  assert (C6 : forall c, can wild_b 4 6 c -> c = ToReduce 2) by (intros [|r] H; [contradiction|now rewrite (R6 r H)]).
  splits.
  - small.
  - split; [doing wild_expands|]. intros c H. left. auto.
  - intros w' [H _]. auto.
  - intros [H _]. contradiction.
  - reflexivity.
  - reflexivity.
  - doing wild_expands.
  - intros [|r] [H _]; auto. destruct (R5 r H).
  - vm_compute. reflexivity.
Qed.

(** ** C19: pass/stack.rs with a larger token type and a smaller stack *)
Definition deep := map (fun n => DType 0 n None) ["Z1"; "Z2"; "Z3"; "Z4"] ++ DStackSize 7 None :: tl stack.
Definition deep_b : built := Eval vm_compute in get (build 300 ida deep).
Definition deep_in := tks deep_b (map (fun i => d "One" (TInt i)) (seq 0 9)).
Example C19_case : expands deep deep_b /\ limit_of deep = 7 /\
  exists e p, api_run 300 (bt_tables deep_b) stack_sem [] deep_in = RErr e p /\ List.length (ps_stack p) = 7 /\ e = "stack overflow" /\ exists r p', unlimited_run deep_b stack_sem 300 [] deep_in = ROk r p'.
Proof. splits; [apply expands_by; vm_compute; reflexivity|reflexivity|]. do 2 eexists. splits; try (vm_compute; reflexivity). do 2 eexists. vm_compute. reflexivity. Qed.

(** ** C20: pass/error2.rs; the second wrong token is not reported *)
Definition error2_b : built := Eval vm_compute in get (build 300 ida error2).
Lemma error2_expands : expands error2 error2_b. Proof. apply expands_by. vm_compute. reflexivity. Qed.
Example C20_case : expands error2 error2_b /\ ~ mentions error2 "error" /\
  exists p, parse_all 300 (bt_tables error2_b) (user_hooks (bt_tables error2_b) error1_sem) (new_parser (user_hooks (bt_tables error2_b) error1_sem) [])
    (map (token_value (bt_tables error2_b) error1_sem) (tks error2_b (good ++ [u "Two"; u "Eol"] ++ good ++ [u "Eol"]))) = ROk tt p /\
    List.length (filter (fun e => match e with EvDrop _ => true | _ => false end) (ps_log p)) = 3 /\ List.length (filter (fun e => match e with EvSyntaxError _ => true | _ => false end) (ps_log p)) = 2.
Proof.
  splits; [apply error2_expands| |eexists; splits; vm_compute; reflexivity].
  intros (d0 & Hd & Hm). cbn in Hd. repeat destruct Hd as [<-|Hd]; try contradiction; vm_compute in Hm; repeat destruct Hm as [Hm|Hm]; discriminate || contradiction.
Qed.
(** What the theorem says of that run: the first of the three wrong tokens and the third are reported *)
Example C20_shown : exists p, parse_all 300 (bt_tables error2_b) (user_hooks (bt_tables error2_b) error1_sem) (new_parser (user_hooks (bt_tables error2_b) error1_sem) [])
    (map (token_value (bt_tables error2_b) error1_sem) (tks error2_b (good ++ [u "Two"; u "Eol"] ++ good ++ [u "Eol"]))) = ROk tt p /\ all_reported_right (ps_log p).
Proof.
  destruct C20_case as (EX & HN & p & Hp & _). exists p. split; [exact Hp|]. pose proof (reports_exact _ _ EX HN error1_sem 300 []
    (tks error2_b (good ++ [u "Two"; u "Eol"] ++ good ++ [u "Eol"]))) as H. rewrite Hp in H. exact H.
Qed.
(** C21 without the error symbol: at the start only One (2) can be shifted, Eol (1) is wrong *)
Example C21_skip_case : let p := new_parser (user_hooks (bt_tables error2_b) error1_sem) [] in
  ps_status p = Normal /\ ps_stack p = [mkEntry 0 0 (0, v_unit error1_sem)] /\ token_wf (bt_tables error2_b) (1, None : option tval) /\
  find_shift_action (bt_tables error2_b) 0 1 = LAct (t_nstate (bt_tables error2_b) + t_nrule (bt_tables error2_b)) /\
  exists p', api_parse 300 (bt_tables error2_b) error1_sem p (1, None) = ROk tt p' /\ ps_stack p' = ps_stack p /\ ps_count p' = 3.
Proof. cbv zeta. splits; [reflexivity|reflexivity|apply token_wf_b_ok; reflexivity|vm_compute; reflexivity|]. eexists. splits; vm_compute; reflexivity. Qed.

(** ** C21, C22, C23, C24: pass/error1.rs *)
Definition error1 := lines_rules (sy "error").
Definition error1_b : built := Eval vm_compute in get (build 300 ida error1).
Lemma error1_expands : expands error1 error1_b. Proof. apply expands_by. vm_compute. reflexivity. Qed.
Lemma error1_usable : usable error1 error1_b. Proof. apply fine_b_ok. vm_compute. reflexivity. Qed.
Lemma error1_types : types_ok error1. Proof. apply types_b_ok. vm_compute. reflexivity. Qed.
Lemma all_midway {V X E} b (sm : sem V X E) n : forall ks p p', midway b sm p -> tokens_wf b ks ->
  parse_all n (bt_tables b) (user_hooks (bt_tables b) sm) p (map (token_value (bt_tables b) sm) ks) = ROk tt p' -> midway b sm p'.
Proof.
  induction ks as [|k ks IH]; intros p p' Hp Hk H; [cbn in H; now injection H as <-|]. inversion Hk; subst. cbn [map parse_all] in H. destruct (token_value (bt_tables b) sm k) as [a v] eqn:Ek.
  destruct (parse_token n (bt_tables b) (user_hooks (bt_tables b) sm) p a v) as [[] p1| | |] eqn:E1; try discriminate. cbn [rbind] in H. apply (IH p1 p'); auto.
  eapply mw_call with (k := k) (n := n); eauto. unfold api_parse. now rewrite Ek.
Qed.
(** After One, Two, Three, Eol, One, the token Eol is wrong *)
Definition error1_in := tks error1_b [u "One"; u "Two"; u "Three"; u "One"].
Definition error1_p : parser (minor tval) txtra tval := Eval vm_compute in
  match parse_all 300 (bt_tables error1_b) (user_hooks (bt_tables error1_b) error1_sem) (new_parser (user_hooks (bt_tables error1_b) error1_sem) []) (map (token_value (bt_tables error1_b) error1_sem) error1_in)
  with ROk _ p => p | _ => new_parser (user_hooks (bt_tables error1_b) error1_sem) [] end.
Definition eol := tk (bt_tables error1_b) (u "Eol").
Example C21_case : types_ok error1 /\ midway error1_b error1_sem error1_p /\ mentions error1 "error" /\ token_wf (bt_tables error1_b) eol /\
  exists top stk, ps_stack error1_p = top :: stk /\ List.length stk = 2 /\ find_shift_action (bt_tables error1_b) (e_state top) (fst eol) = LAct (t_nstate (bt_tables error1_b) + t_nrule (bt_tables error1_b)) /\
  exists p', api_parse 300 (bt_tables error1_b) error1_sem error1_p eol = ROk tt p' /\ map e_major (ps_stack p') = [g_error (bt_grammar error1_b); 7; 0].
Proof.
  splits.
  - apply error1_types.
  - eapply all_midway with (ks := error1_in) (n := 300); [apply (mw_new _ _ [])|apply tokens_wf_b_ok; vm_compute; reflexivity|vm_compute; reflexivity].
  - eexists. split; [do 3 right; left; reflexivity|]. cbn. auto.
  - apply token_wf_b_ok. vm_compute. reflexivity.
  - do 2 eexists. splits; try (vm_compute; reflexivity). eexists. splits; vm_compute; reflexivity.
Qed.
(** C22: the third call of pass/error3.rs fails *)
Definition error3_b : built := Eval vm_compute in get (build 300 ida error3).
Definition error3_p : parser (minor tval) txtra tval := Eval vm_compute in
  match parse_all 300 (bt_tables error3_b) (user_hooks (bt_tables error3_b) error3_sem) (new_parser (user_hooks (bt_tables error3_b) error3_sem) [])
    (map (token_value (bt_tables error3_b) error3_sem) (tks error3_b [d "Letter" (ch "A"); d "Letter" (ch "B"); d "Letter" (ch "C")]))
  with ROk _ p => p | _ => new_parser (user_hooks (bt_tables error3_b) error3_sem) [] end.
Example C22_case : ps_status error3_p = Normal /\ exists p', api_parse 300 (bt_tables error3_b) error3_sem error3_p (tk (bt_tables error3_b) (d "Letter" (ch "D"))) = RErr "see" p'.
Proof. split; [reflexivity|]. eexists. vm_compute. reflexivity. Qed.
(** C23: end_of_input after a complete and after an incomplete input *)
Example C23_case : forall l, l = [u "One"; u "Two"; u "Three"] \/ l = [u "One"; u "Two"] -> tokens_wf error1_b (tks error1_b l) /\
  exists p, parse_all 300 (bt_tables error1_b) (user_hooks (bt_tables error1_b) error1_sem) (new_parser (user_hooks (bt_tables error1_b) error1_sem) []) (map (token_value (bt_tables error1_b) error1_sem) (tks error1_b l)) = ROk tt p /\
  match end_of_input 300 (bt_tables error1_b) (user_hooks (bt_tables error1_b) error1_sem) p with ROk _ _ => List.length l = 3 | RErr e _ => List.length l = 2 /\ e = "fail" | _ => False end.
Proof. intros l [->| ->]; (split; [apply tokens_wf_b_ok; vm_compute; reflexivity|]); eexists; (split; [vm_compute; reflexivity|]); vm_compute; auto. Qed.
(** C24: in the first state of pass/error1.rs only One (2) is expected; Eol (1) is an error *)
Example C24_case : Main.plain error1 /\ 0 < List.length (p_states (bt_auto error1_b)) /\ map (tok_name error1_b) [1; 2] = ["Eol"; "One"] /\ says_error error1_b 0 1 /\
  expected_tokens (bt_tables error1_b) (state_num (bt_grammar error1_b) (bt_comp error1_b) 0) = [2].
Proof. splits; [apply plain_b_ok; reflexivity|small|reflexivity|vm_compute; reflexivity|vm_compute; reflexivity]. Qed.
(** C25: handlers that differ on all tokens but one *)
Definition other_sem : tsem := with_syntax error1_sem (fun k l x => match k with Some (1, None) => u_syntax error1_sem k l x | _ => (x, inr "other") end).
Example C25_case : token_wf (bt_tables error1_b) eol /\ agree_on eol error1_sem other_sem /\ u_syntax error1_sem (Some (2, None)) [] [] <> u_syntax other_sem (Some (2, None)) [] [] /\
  exists p', api_parse 300 (bt_tables error1_b) error1_sem error1_p eol = ROk tt p' /\ In (EvSyntaxError 1) (ps_log p').
Proof. splits; [apply token_wf_b_ok; reflexivity|constructor; intros; reflexivity|discriminate|]. eexists. split; [vm_compute; reflexivity|]. vm_compute. auto. Qed.
Definition strict_sem : tsem := with_syntax error1_sem (fun _ _ x => (x, inr "strict")).
Example C25_ending_case : exists p' l, api_parse 300 (bt_tables error1_b) strict_sem error1_p eol = RErr "strict" p' /\ ps_log p' = EvSyntaxError (fst eol) :: l.
Proof. eexists. eexists. split; vm_compute; reflexivity. Qed.
(** C26, C31: pass/optional.rs has two optional symbols; both orders of the hash map *)
Definition opt_b1 : built := Eval vm_compute in get (build 300 ida optional).
Definition opt_b2 : built := Eval vm_compute in get (build 300 (fun l => rev l) optional).
Lemma opt_expands1 : expands optional opt_b1. Proof. apply expands_by. vm_compute. reflexivity. Qed.
Lemma opt_expands2 : expands optional opt_b2. Proof. exists 300, (fun l => rev l). split; [apply rev_order|]. vm_compute. reflexivity. Qed.
Definition opt_in := [u "One"; d "Two" (TInt 42); u "Three"; d "Two" (TInt 24); u "Four"; u "End"].
Example C31_case : usable optional opt_b1 /\ usable optional opt_b2 /\ Main.plain optional /\ no_fallback optional /\ types_ok optional /\
  map r_lhs (g_rules (bt_grammar opt_b1)) <> map r_lhs (g_rules (bt_grammar opt_b2)) /\
  tokens_wf opt_b1 (tks opt_b1 opt_in) /\ tokens_wf opt_b2 (tks opt_b2 opt_in) /\ reading opt_b1 optional_sem (tks opt_b1 opt_in) = reading opt_b2 optional_sem (tks opt_b2 opt_in) /\
  answers opt_b1 optional_sem [] (tks opt_b1 opt_in) (TInt 66) [].
Proof.
  splits; try (apply fine_b_ok; vm_compute; reflexivity); try (apply tokens_wf_b_ok; vm_compute; reflexivity).
  - apply plain_b_ok. reflexivity.
  - unfold no_fallback. apply no_fallback_b_ok. reflexivity.
  - apply types_b_ok. reflexivity.
  - vm_compute. discriminate.
  - vm_compute. reflexivity.
  - exists 300. apply ran_ok_run. vm_compute. reflexivity.
Qed.
(** C31: two optional symbols beside precedences, a fallback and the wildcard *)
Definition rich := [DType 0 "Id" (T "i32"); DType 0 "Kw" (T "i32"); DType 0 "expr" (T "i32"); DType 0 "input" (T "i32"); DFallback "Id" ["Kw"]; DWildcard "Any"; DAssoc ALeft ["Plus"]; DAssoc ALeft ["Star"];
  rc "input" [op "Sign"; al "expr"; op "tail"] 1; rc "expr" [al "expr"; sy "Plus"; al "expr"] 2; rc "expr" [al "expr"; sy "Star"; al "expr"] 3; rc "expr" [al "Id"] 4; rc "expr" [sy "Open"; sy "Kw"; al "expr"; sy "Close"] 5;
  rn "tail" [sy "Semi"; sy "Any"]].
Definition rich_sem : tsem := std (fun c l x => ok (push x (TInt c)) match c, l with 2, [TInt a; TInt b] => TInt (a + b) | 3, [TInt a; TInt b] => TInt (a * b) | _, [v] => v | _, _ => TUnit end).
Definition rich_b1 : built := Eval vm_compute in get (build 300 ida rich).
Definition rich_b2 : built := Eval vm_compute in get (build 300 (fun l => rev l) rich).
Lemma rich_expands1 : expands rich rich_b1. Proof. apply expands_by. vm_compute. reflexivity. Qed.
Lemma rich_expands2 : expands rich rich_b2. Proof. exists 300, (fun l => rev l). split; [apply rev_order|]. vm_compute. reflexivity. Qed.
Definition rich_in := [u "Sign"; d "Id" (TInt 2); u "Plus"; d "Kw" (TInt 3); u "Star"; d "Id" (TInt 4); u "Semi"; u "Close"].
Example C31_run_case : usable rich rich_b1 /\ usable rich rich_b2 /\ map r_lhs (g_rules (bt_grammar rich_b1)) <> map r_lhs (g_rules (bt_grammar rich_b2)) /\
  t_rules (bt_tables rich_b1) <> t_rules (bt_tables rich_b2) /\ tokens_wf rich_b1 (tks rich_b1 rich_in) /\
  answers rich_b1 rich_sem [] (tks rich_b1 rich_in) (TInt 14) [TInt 4; TInt 4; TInt 4; TInt 3; TInt 2; TInt 1] /\
  answers rich_b2 rich_sem [] (tks rich_b2 rich_in) (TInt 14) [TInt 4; TInt 4; TInt 4; TInt 3; TInt 2; TInt 1].
Proof.
  splits; try (apply fine_b_ok; vm_compute; reflexivity); try (apply tokens_wf_b_ok; vm_compute; reflexivity); try (vm_compute; discriminate); exists 300; apply ran_ok_run; vm_compute; reflexivity.
Qed.
(** C03: a tree with an optional element left out and one present *)
Example C03_case : (forall n, assoc_of optional n = None) /\ start_of optional = Some "input" /\
  Forall (fun a => class_of optional a = None) ["One"; "Three"; "Two"; "Four"; "End"] /\
  tree_of optional "input" ["One"; "Three"; "Two"; "Four"; "End"]
    (LRule 0 [LTok "One"; LNone; LTok "Three"; LSome (LTok "Two"); LTok "Four"; LSome (LRule 1 [LTok "End"])]).
Proof.
  splits; [apply (plain_b_ok optional); reflexivity|reflexivity|repeat constructor|].
  apply (to_rule optional 0 (nth 0 (rules_in optional) (mkDr "" [] None None)) ["One"; "Three"; "Two"; "Four"; "End"]); [reflexivity|].
  assert (ST : forall a al, stands optional a a -> elem_tree optional ([a], false, al) [a] (LTok a)) by (intros; apply et_one; now apply to_tok).
  cbn.
  apply (ts_cons _ _ _ ["One"]); [apply ST; split; reflexivity|].
  apply (ts_cons _ _ _ []); [constructor|].
  apply (ts_cons _ _ _ ["Three"]); [apply ST; split; reflexivity|].
  apply (ts_cons _ _ _ ["Two"]); [constructor; constructor; split; reflexivity|].
  apply (ts_cons _ _ _ ["Four"]); [apply ST; split; reflexivity|].
  apply (ts_cons _ _ _ ["End"] []); [|constructor].
  constructor. apply (to_rule optional 1 (nth 1 (rules_in optional) (mkDr "" [] None None)) ["End"]); [reflexivity|].
  apply (ts_cons _ _ _ ["End"] []); [apply ST; split; reflexivity|constructor].
Qed.
(** C06: the grammar of Refutations3 with the default limit; [d] derives nothing and the token
    G brings the stack to its limit *)
Definition dead2 : built := Eval vm_compute in get (build 300 ida (tl dead_ds)).
Example C06_limit_case : expands (tl dead_ds) dead2 /\ usable (tl dead_ds) dead2 /\ (forall n, assoc_of (tl dead_ds) n = None) /\ limit_of (tl dead_ds) <> 0 /\ types_ok (tl dead_ds) /\
  tokens_wf (V := val) dead2 [(22, None)] /\ exists pp, api_run 300 (bt_tables dead2) dsem [] [(22, None)] = RErr 99 pp.
Proof.
  splits; [apply expands_by; vm_compute; reflexivity|apply fine_b_ok; vm_compute; reflexivity|apply (plain_b_ok (tl dead_ds)); vm_compute; reflexivity|discriminate|apply types_b_ok; vm_compute; reflexivity|
    apply tokens_wf_b_ok; vm_compute; reflexivity|]. eexists. vm_compute. reflexivity.
Qed.
(** C06: a grammar with precedences and left recursion; the conditions hold by a ranking of the names *)
Example C06_tree_case : assoc_of tree "Plus" = Some (1, ALeft) /\ acyclic tree /\ no_hidden tree /\ types_ok tree.
Proof.
  splits; [reflexivity|apply (acyclic_b_ok _ (fun n => if (n =? "input")%string then 2 else if (n =? "tree")%string then 1 else 0)); reflexivity|
    apply (no_hidden_b_ok _ (fun n => if (n =? "input")%string then 2 else if (n =? "tree")%string then 1 else 0)); reflexivity|apply types_b_ok; reflexivity].
Qed.
Example C06_tree_shown {V X E} (sm : sem V X E) x ks : tokens_wf tree_b ks ->
  exists n, forall n', n <= n' -> api_run n' (bt_tables tree_b) sm x ks = api_run n (bt_tables tree_b) sm x ks /\ api_run n (bt_tables tree_b) sm x ks <> RFuel.
Proof. destruct C06_tree_case as (_ & H1 & H2 & H3). apply (parse_returns _ _ tree_expands tree_usable); auto. Qed.
(** C27, C28: json.rs has rules, tokens and types of all kinds *)
Example C27_case : List.length (rules_in json) = 15 /\ nth_error (rules_in json) 8 = Some (mkDr "jdict" [sy "LBrace"; oa "jitem_list"; sy "RBrace"] (Some 5) None) /\ mentions json "Colon" /\ class_of json "Colon" = None /\ FrontFacts.upper "Colon".
Proof. splits; try reflexivity. eexists. split; [do 5 right; left; reflexivity|]. cbn. auto. Qed.
(** C29: the error of the failing block *)
Example C29_case : exists p', api_run 300 (bt_tables error3_b) error3_sem [] (tks error3_b [d "Letter" (ch "A"); d "Letter" (ch "C"); d "Letter" (ch "D")]) = RErr "see" p' /\ ps_extra p' = [ch "A"].
Proof. eexists. split; vm_compute; reflexivity. Qed.
(** C30, C36 *)
Example C36_case : no_self_fallback token_class /\ elems_named token_class /\ classes_begin token_class /\ shifts_leave token_class /\ class_of token_class "Number" = Some ["One"; "Two"; "Three"] /\ exists b, build 300 ida token_class = GOk b.
Proof.
  splits.
  - apply no_self_b_ok. reflexivity.
  - intros lhs rhs c p toks o a Hd He. cbn in Hd. repeat destruct Hd as [Hd|Hd]; try discriminate; try contradiction; injection Hd as <- <- <- <-; cbn in He; repeat destruct He as [He|He]; try contradiction; injection He as <- <- <-; discriminate.
  - intros n ms H. pose proof (class_named _ _ _ H) as Hn. cbn in Hn. destruct Hn as [<-|[<-|[]]]; vm_compute in H; injection H as <-; do 2 eexists; (split; [reflexivity|discriminate]).
  - assert (HB : exists b, build 300 ida token_class = GOk b) by (eexists; vm_compute; reflexivity). destruct HB as [b HB].
    apply Claims13.faultless_leave, (Claims13.expanded_faultless token_class b); [exists 300, ida; split; [intros l; reflexivity|exact HB]|]. intros [E|E]; discriminate.
  - reflexivity.
  - eexists. vm_compute. reflexivity.
Qed.
(** C36: json.rs has no classes; [looping_ds] is reported as what it is *)
Example C36_lone_case : lone_tokens json /\ elems_named json /\ classes_begin json /\ 0 < List.length (rules_in json).
Proof.
  splits; [split; [intros n ms H; discriminate|]| |intros n ms H; discriminate|vm_compute; lia].
  - intros toks o al (r & Hr & He). cbn in Hr. repeat (destruct Hr as [<-|Hr]; [cbn in He; repeat (destruct He as [He|He]; [injection He as <- <- <-; cbn; lia|]); destruct He|]). destruct Hr.
  - intros lhs rhs c p toks o al Hd He ->. unfold json in Hd. repeat (destruct Hd as [E|Hd]; [try discriminate; injection E as <- <- <- <-; repeat (destruct He as [E|He]; [discriminate|]); destruct He|]). destruct Hd.
Qed.
Example C36_reason_case : elems_named looping_ds /\ classes_begin looping_ds /\ build 300 ida looping_ds = GPanic.
Proof. apply macro_panic_refuted. Qed.
(** C32: the README grammar, with values checked against the declared types *)
Definition has_type (ty : ty) (v : tval) : bool :=
  let ints := forallb (fun v => match v with TInt _ => true | _ => false end) in
  match ty, v with
  | TyName "i32", TInt _ => true
  | TyName "Vec<i32>", TSeq l => ints l
  | TyOption (TyName "Vec<i32>"), TNone => true
  | TyOption (TyName "Vec<i32>"), TSome (TSeq l) => ints l
  | _, _ => false
  end.
Definition readme_in := tks readme_b [d "Number" (TInt 1); u "Comma"; d "Number" (TInt 2)].
Example C32_case : types_ok readme /\ well_typed readme has_type readme_sem /\ tokens_wf readme_b readme_in /\ typed_tokens readme readme_b has_type readme_in /\
  exists pp, api_run 300 (bt_tables readme_b) readme_sem [] readme_in = ROk (TSeq [TInt 1; TInt 2], []) pp.
Proof.
  splits.
  - apply readme_types.
  - constructor.
    + intros d0 vs x x' v Hd HF Hr. cbn in Hd. destruct Hd as [<-|[<-|[<-|[]]]]; cbn [d_rhs] in HF.
      * inversion HF as [|? v1 ? ? H1 HF1]; subst. inversion HF1; subst. specialize (H1 eq_refl). cbn in Hr. injection Hr as _ <-. vm_compute in H1. destruct v1 as [| |v1| | | | | |]; try discriminate; [reflexivity|]. destruct v1; try discriminate. exact H1.
      * inversion HF as [|? v1 ? ? H1 HF1]; subst. inversion HF1; subst. specialize (H1 eq_refl). cbn in Hr. injection Hr as _ <-. vm_compute in H1. destruct v1; try discriminate. reflexivity.
      * inversion HF as [|? v1 ? ? H1 HF1]; subst. inversion HF1 as [|? v2 ? ? _ HF2]; subst. inversion HF2 as [|? v3 ? ? H3 HF3]; subst. inversion HF3; subst. specialize (H1 eq_refl). specialize (H3 eq_refl). cbn in Hr. injection Hr as _ <-.
        cbn in H1, H3. destruct v1; try discriminate. destruct v3; try discriminate. cbn. rewrite forallb_app, H1. reflexivity.
    + intros d0 n a Hd Hin. cbn in Hd. destruct Hd as [<-|[<-|[<-|[]]]]; cbn in Hin; repeat destruct Hin as [Hin|Hin]; try discriminate; try contradiction. injection Hin as <- <-. reflexivity.
    + intros d0 n a v Hd Hin Hv. cbn in Hd. destruct Hd as [<-|[<-|[<-|[]]]]; cbn in Hin; repeat destruct Hin as [Hin|Hin]; try discriminate; try contradiction. injection Hin as <- <-. cbn in Hv |- *. destruct v; try discriminate. auto.
    + intros k l x x' v H. cbn in H. discriminate.
  - apply tokens_wf_b_ok. vm_compute. reflexivity.
  - intros i v Hin. vm_compute in Hin. destruct Hin as [E|[E|[E|[]]]]; try discriminate; injection E as <- <-; reflexivity.
  - eexists. vm_compute. reflexivity.
Qed.
(** C33: pass/token_class.rs with the class written out *)
Definition spelled_out := map (fun dc => match dc with DRule l [e; (["Number"], o, a)] c p => DRule l [e; (["One"; "Two"; "Three"], o, a)] c p | DRule l [e; (["Letter"], o, a)] c p => DRule l [e; (["Aaa"; "Bbb"; "Ccc"], o, a)] c p | _ => dc end) token_class.
Definition class_b : built := Eval vm_compute in get (build 300 ida token_class).
Definition spelled_b : built := Eval vm_compute in get (build 300 ida spelled_out).
Example C33_case : Forall2 (spelled_decl token_class) token_class spelled_out /\ token_class <> spelled_out /\ expands token_class class_b /\ usable token_class class_b /\ expands spelled_out spelled_b /\ usable spelled_out spelled_b /\
  Main.plain token_class /\ no_fallback token_class /\ types_ok token_class /\ types_ok spelled_out /\ tokens_wf class_b (tks class_b one_two_three) /\ tokens_wf spelled_b (tks spelled_b one_two_three) /\
  reading class_b list_sem (tks class_b one_two_three) = reading spelled_b list_sem (tks spelled_b one_two_three) /\ answers class_b list_sem [] (tks class_b one_two_three) (TSeq [TInt 1; TInt 2; TInt 3]) [].
Proof.
  splits; try (apply fine_b_ok; vm_compute; reflexivity); try (apply tokens_wf_b_ok; vm_compute; reflexivity); try (apply expands_by; vm_compute; reflexivity); try (apply types_b_ok; reflexivity).
  - unfold token_class, spelled_out. repeat (apply Forall2_cons; [first [apply sd_same|apply sd_rule; repeat (apply Forall2_cons; [first [apply sp_same|apply sp_class; try reflexivity; cbn; lia]|]); apply Forall2_nil]|]). apply Forall2_nil.
  - discriminate.
  - apply plain_b_ok. reflexivity.
  - unfold no_fallback. apply no_fallback_b_ok. reflexivity.
  - vm_compute. reflexivity.
  - exists 300. apply ran_ok_run. vm_compute. reflexivity.
Qed.

(** C37: the text of pass/token_class.rs, with a small stand-in for syn *)
Fixpoint ex_attrs (ts : list tok) : nat * list tok :=
  match ts with
  | TPunct (POther p) :: TGroup Bracket _ :: r => if (p =? "#")%string then let '(n, r') := ex_attrs r in (S n, r') else (0, ts)
  | _ => (0, ts)
  end.
Definition ex_type (ts : list tok) : option (ty * list tok) :=
  match ts with
  | TIdent s :: TPunct (POther p) :: TIdent a :: TPunct (POther q) :: r => if (p ++ q =? "<>")%string then Some (TyName (s ++ "<" ++ a ++ ">"), r) else None
  | TIdent s :: r => Some (TyName s, r)
  | TGroup Paren [] :: r => Some (TyUnit, r)
  | _ => None
  end%string.
Definition ex_item (kw : string) (ts : list tok) : option (nat * list string * list tok) :=
  match ts with
  | TKey k :: TIdent _ :: TGroup Brace l :: r => if (k =? kw)%string then Some (List.length l, [], r) else None
  | _ => None
  end.
Definition ex_syn : syn := mkSyn (fun ts => Some (ex_attrs ts)) ex_type (ex_item "enum") (ex_item "struct")
  (fun l => Some (List.length l)) (fun l => Some (List.length l)) (fun l => match l with [] => None | _ => Some "x" end).
Lemma ex_attrs_local n : forall ts k t rest, List.length ts <= n -> is_ident t -> ex_attrs ts = (k, t :: rest) ->
  exists l, ts = l ++ t :: rest /\ forall t' r', is_ident t' -> ex_attrs (l ++ t' :: r') = (k, t' :: r').
Proof.
  induction n as [|n IH]; intros ts k t rest Hn [s ->] E; (destruct ts as [|t0 ts]; [cbn in E; discriminate|cbn in Hn]); [lia|].
  assert (H0 : ex_attrs (t0 :: ts) = (0, t0 :: ts) -> exists l, t0 :: ts = l ++ TIdent s :: rest /\ forall t' r', is_ident t' -> ex_attrs (l ++ t' :: r') = (k, t' :: r')).
  { intros E'. rewrite E' in E. injection E as <- <- <-. exists []. split; auto. intros t' r' [s' ->]. reflexivity. }
  destruct t0 as [|w|p| |]; try (apply H0; reflexivity). destruct p as [| | | | | |c]; try (apply H0; reflexivity).
  destruct ts as [|[| | | |[] gl] ts]; try (apply H0; reflexivity). cbn [ex_attrs] in E, H0.
  destruct (c =? "#")%string eqn:C; [|now apply H0].
  destruct (ex_attrs ts) as [k' r'] eqn:A. injection E as <- ->. cbn in Hn.
  destruct (IH ts k' (TIdent s) rest ltac:(lia) (ex_intro _ s eq_refl) A) as (l & -> & T).
  exists (TPunct (POther c) :: TGroup Bracket gl :: l). split; auto. intros t' q Ht. cbn [app ex_attrs]. now rewrite C, T.
Qed.
Lemma ex_item_local kw : local (ex_item kw) is_semi.
Proof.
  intros ts a t rest Ht E. unfold ex_item in E. destruct ts as [|[|k| | |] [|[i| | | |] [|[| | | |[] l] r]]]; try discriminate.
  destruct (k =? kw)%string eqn:K; [|discriminate]. injection E as <- ->.
  exists [TKey k; TIdent i; TGroup Brace l]. split; auto. intros t' r' _. cbn. now rewrite K.
Qed.
Lemma ex_syn_ok : syn_ok ex_syn.
Proof.
  constructor; [| |apply ex_item_local..|reflexivity].
  - intros ts k t rest Ht E. cbn in E. injection E as E. destruct (ex_attrs_local _ ts k t rest (le_n _) Ht E) as (l & -> & T).
    exists l. split; auto. intros t' r' Ht'. cbn. now rewrite T.
  - intros ts a t rest -> E. cbn [s_type ex_syn] in *.
    assert (H1 : forall s r, ex_type (TIdent s :: r) = Some (TyName s, r) -> ts = TIdent s :: r -> exists l, ts = l ++ SEMI :: rest /\ takes ex_type is_semi a l).
    { intros s r E' ->. rewrite E' in E. injection E as <- ->. exists [TIdent s]. split; auto. intros t' r' ->. reflexivity. }
    destruct ts as [|[s| | | |[] [|]] r]; try discriminate.
    + destruct (ex_type (TIdent s :: r)) as [[a' r0]|] eqn:F; [|discriminate]. injection E as -> ->.
      assert (C : (exists p x q, r = TPunct (POther p) :: TIdent x :: TPunct (POther q) :: SEMI :: rest /\ (p ++ q =? "<>")%string = true /\ a = TyName (s ++ "<" ++ x ++ ">")) \/ (r = SEMI :: rest /\ a = TyName s)).
      { unfold ex_type in F. repeat match type of F with context [match ?x with _ => _ end] => is_var x; destruct x; try (injection F as <- ->; auto; fail); try discriminate F end.
        match type of F with context [(?u =? "<>")%string] => destruct (u =? "<>")%string eqn:K end; [|discriminate]. injection F as <- ->. left. do 3 eexists. splits; [reflexivity|exact K|reflexivity]. }
      destruct C as [(p & x & q & -> & K & ->)|[-> ->]].
      * exists [TIdent s; TPunct (POther p); TIdent x; TPunct (POther q)]. split; auto. intros t' r' _. cbn [app ex_type]. now rewrite K.
      * exists [TIdent s]. split; auto. intros t' r' ->. reflexivity.
    + injection E as <- ->. exists [TGroup Paren []]. split; auto. intros t' r' _. reflexivity.
Qed.
Definition W (s : string) : tok := TIdent s. Definition IS : list tok := [TPunct PPath; TPunct PEq].
Definition vec_text : list tok := [W "Vec"; TPunct (POther "<"); W "i32"; TPunct (POther ">"); SEMI].
Definition class_text : list tok :=
  [PCT; W "token_class"; W "Number"; W "One"; W "Two"; W "Three"; SEMI] ++
  [PCT; W "token_class"; W "Letter"; W "Aaa"; W "Bbb"; W "Ccc"; SEMI] ++
  [PCT; W "default_type"; W "i32"; SEMI] ++
  [PCT; TKey "type"; W "Aaa"; W "i8"; SEMI] ++
  [PCT; TKey "type"; W "input"] ++ vec_text ++
  [PCT; TKey "type"; W "list"] ++ vec_text ++
  W "input" :: IS ++ [W "list"; TGroup Paren [W "L"]; TGroup Brace [W "L"]] ++
  W "list" :: IS ++ [TGroup Brace [W "Vec"; TPunct PPath; W "new"; TGroup Paren []]] ++
  W "list" :: IS ++ [W "list"; TGroup Paren [TKey "mut"; W "L"]; W "Number"; TGroup Paren [W "A"];
    TGroup Brace [W "L"; TPunct (POther "."); W "push"; TGroup Paren [W "A"]; SEMI; W "L"]] ++
  W "list" :: IS ++ [W "list"; TGroup Paren [W "L"]; W "Letter"; TGroup Brace [W "L"]].
Definition no_code (d : decl) : decl := match d with DRule l r (Some _) p => DRule l r (Some 0) p | _ => d end.
Example C37_case : syn_ok ex_syn /\ exists ds, read ex_syn class_text = Some ds /\ decls_text ex_syn ds class_text /\ map no_code ds = map no_code token_class /\
  match macro ex_syn 300 ida class_text with Some (GOk _) => True | _ => False end.
Proof.
  split; [exact ex_syn_ok|]. eexists. splits; [vm_compute; reflexivity|apply read_iff; [exact ex_syn_ok|vm_compute; reflexivity]|vm_compute; reflexivity|vm_compute; exact Logic.I].
Qed.
(** Two closed texts, and an open one before a directive *)
Example C37_apart_case : closes (rule_ab ++ [SEMI]) /\ read ex_syn (rule_ab ++ [SEMI]) <> None /\ read ex_syn rule_cd <> None /\
  read ex_syn ((rule_ab ++ [SEMI]) ++ rule_cd) <> None /\ read ex_syn (rule_ab ++ [PCT; W "verbose"; SEMI]) = Some [DRule "a" [(["B"], false, None)] None None; DVerbose].
Proof. splits; try discriminate; try reflexivity. right. left. now exists rule_ab. Qed.

(** C38: faulty declarations (the dangling else among them), each reported with its error; and a grammar without faults *)
Definition faulty : list (list decl * gerr) :=
  [ ([DType 0 "One" (T "i32"); DType 0 "Two" (T "i8"); rc "start" [(["One"; "Two"; "Three"], false, Some "A")] 1], ECompoundAlias);
    ([DFallback "One" ["Two"; "Three"]; DType 0 "One" (T "i8")] ++ inp, EFallbackType);
    ([DFallback "One" ["Two"]; DFallback "Two" ["Three"]; DFallback "Three" ["One"]] ++ inp, EFallbackLoop);
    ([DStackSize 10 (T "MyVec"); DStackSize 20 None] ++ inp, EStackSizeDup);
    ([DType 0 "a" (T "i8"); rn "input" [sy "a"]; rn "a" [sy "X"; sy "Y"]], ETypedNoCode);
    ([rn "input" [sy "e"]; rn "e" [sy "e"; sy "Plus"; sy "e"]; rn "e" [sy "Num"]], EConflicts);
    ([rn "input" [sy "stmt"]; rn "stmt" [sy "If"; sy "stmt"]; rn "stmt" [sy "If"; sy "stmt"; sy "Else"; sy "stmt"]; rn "stmt" [sy "Skip"]], EConflicts);
    ([DAssoc ANone ["A"; "B"]; rn "input" [sy "x"; sy "Z"]; DRule "x" [sy "y"] None (Some "A"); DRule "x" [sy "z"] None (Some "B"); rn "y" [sy "Q"]; rn "z" [sy "Q"]], ENotReduced);
    (inp ++ [rn "foo" [sy "Tok"]], ENotReduced) ].
Example C38_case : forallb (fun q => flat_b (fst q)) faulty = true /\ map (fun q => error_of (fst q)) faulty = map (fun q => Some (snd q)) faulty.
Proof. split; vm_compute; reflexivity. Qed.
Example C38_none_case : expands json json_b /\ flat_decls json /\ 20 < List.length json.
Proof. splits; [exact json_expands|apply flat_b_ok; reflexivity|vm_compute; lia]. Qed.
(** C38, C31: what the exact statements assume *)
Example C38_initials_case : begins_with capitals "Zed" /\ begins_with smalls "zed" /\ ~ begins_with capitals "_Zed" /\ ~ begins_with smalls "_zed" /\
  error_of [rl "zed" ["_zed"] 1] = Some EBadIdent.
Proof. splits; cbn; try tauto; try (intros H; repeat destruct H as [H|H]; try discriminate H; contradiction). Qed.
Example C38_exact_case : expands json json_b /\ no_self_fallback json /\ elems_named json /\ classes_begin json /\ flat_decls json.
Proof.
  splits; [exact json_expands|apply no_self_b_ok; reflexivity| |intros n ms H; discriminate|apply flat_b_ok; reflexivity].
  intros lhs rhs c p toks o al Hd He ->. unfold json in Hd. repeat (destruct Hd as [E|Hd]; [try discriminate; injection E as <- <- <- <-; repeat (destruct He as [E|He]; [discriminate|]); destruct He|]). destruct Hd.
Qed.

(** ** C39, C40: derivation trees with values, and precedences *)
Lemma mt_cons_at {ds V X E} {sm : sem V X E} {tk} e es w x x1 x2 v vs t ts : meant_elem ds sm tk e (firstn (List.length (leaves t)) w) x x1 v t ->
  meant_all ds sm tk es (skipn (List.length (leaves t)) w) x1 x2 vs ts -> meant_all ds sm tk (e :: es) w x x2 (v :: vs) (t :: ts).
Proof. intros H1 H2. rewrite <- (firstn_skipn (List.length (leaves t)) w). eapply mt_cons; eauto. Qed.
Ltac mtree := repeat match goal with
  | |- meant ?ds ?sm ?tk ?n ?w ?x ?x' ?v (LRule ?i ?ts) =>
      let d := eval vm_compute in (match nth_error (rules_in ds) i with Some d => d | None => mkDr "" [] None None end) in
      refine (mt_rule ds sm tk i d _ _ _ _ _ _ _ _ _ _); [vm_compute; reflexivity| |]; cbn [d_rhs]
  | |- result _ _ _ _ _ = _ => vm_compute; reflexivity
  | |- meant ?ds ?sm ?tk ?n ?w ?x ?x' ?v (LTok ?a) => refine (mt_tok ds sm tk a _ a n _ _ _); [first [reflexivity|left; constructor]|split; reflexivity]
  | |- meant_elem _ _ _ _ _ _ _ _ _ => apply mt_one
  | |- meant_all _ _ _ [] _ _ _ _ _ => apply mt_nil
  | |- meant_all _ _ _ _ _ _ _ _ _ => eapply mt_cons_at; cbn [List.length leaves flat_map app firstn skipn]
  end.

Definition tnum (k : nat) := LRule 1 [LTok "Integer"].
Definition tsum a b := LRule 3 [a; LTok "Plus"; b].
Definition tmul a b := LRule 5 [a; LTok "Mult"; b].
(** [1 + 2 * 3] can be read in two ways *)
Definition tree_good := LRule 0 [tsum (tnum 1) (tmul (tnum 2) (tnum 3))].
Definition tree_bad := LRule 0 [tmul (tsum (tnum 1) (tnum 2)) (tnum 3)].
Ltac starts := eexists _, _, _, _; splits; try reflexivity; left; eexists _, _; split; [reflexivity|split; reflexivity].
Lemma tree_both : meant tree tree_sem (taken tree) "input" (reading tree_b tree_sem tree_in) [] [] (TBin "+" (TInt 1) (TBin "*" (TInt 2) (TInt 3))) tree_good /\
  meant tree tree_sem (taken tree) "input" (reading tree_b tree_sem tree_in) [] [] (TBin "*" (TBin "+" (TInt 1) (TInt 2)) (TInt 3)) tree_bad.
Proof.
  assert (E : reading tree_b tree_sem tree_in = [("Integer", TInt 1); ("Plus", TUnit); ("Integer", TInt 2); ("Mult", TUnit); ("Integer", TInt 3)]) by (vm_compute; reflexivity). rewrite E.
  split; unfold tree_good, tree_bad, tsum, tmul, tnum; mtree.
Qed.
(** In the first one a [*] within the right operand of the [+] is over it ([ne_right]); in the
    second one the rule of [+] would have to be over [*] ([ne_left]), which it is not. *)
Example C39_case : wildcard_of tree = None /\ (forall a l, assoc_of tree a = Some (l, ANone) -> fallback_of tree a = None) /\ tokens_wf tree_b tree_in /\
  (exists pp, api_run 300 (bt_tables tree_b) tree_sem [] tree_in = ROk (TBin "+" (TInt 1) (TBin "*" (TInt 2) (TInt 3)), []) pp /\ ~ dropped pp) /\
  (exists di, ends_in tree 3 di "tree" /\ starts_with tree 5 "tree" "Mult" /\ tok_over tree "Mult" di /\ ~ rule_over tree di "Mult") /\ ~ nested tree tree_bad.
Proof.
  destruct C35_case as (H1 & H2 & H3 & H4).
  assert (A : exists di, ends_in tree 3 di "tree" /\ starts_with tree 5 "tree" "Mult" /\ tok_over tree "Mult" di /\ ~ rule_over tree di "Mult").
  { eexists. splits.
    - split; [reflexivity|]. exists [al "tree"; sy "Plus"]. now eexists.
    - starts.
    - exists 2, ALeft, 1, ALeft. splits; try reflexivity. left. lia.
    - intros (i & u & j & v & Ha & Hd & H). vm_compute in Ha, Hd. injection Ha as <- <-. injection Hd as <- <-. lia. }
  splits; auto. intros [_ NL]. destruct A as (di & E & S & _ & N). apply N. apply (NL 3 di "tree" [tnum 1; LTok "Plus"; tnum 2] "Mult" ["Integer"] 5); auto.
  apply (oc_rule _ _ 0 [] _ []). apply (oc_rule _ _ 5 [] (tsum (tnum 1) (tnum 2)) [LTok "Mult"; tnum 3]). apply oc_here.
Qed.

(** C41: the grammar of pass/tree.rs is one of operators, so every arithmetic expression is
    accepted; [1 + 2 * 3] has two trees, of which one is nested as declared. *)
Lemma tree_operators : operators tree "input" "tree". Proof. apply operators_b_ok. vm_compute. reflexivity. Qed.
Lemma tree_types : types_ok tree. Proof. apply types_b_ok. vm_compute. reflexivity. Qed.
Lemma tree_assoc : forall j a l, starts_with tree j "tree" a -> assoc_of tree a <> Some (l, ANone).
Proof.
  intros j a l (d & al & e & es & Hd & HL & HR & HS) E.
  do 9 (destruct j as [|j]; [vm_compute in Hd; injection Hd as <-; first [discriminate HL|discriminate HR|injection HR as _ <- _; destruct HS as [(m & al' & Eq & U & Hc)|(ns & o & al' & Eq & Ln & _)];
    [injection Eq as <- _; vm_compute in Hc; subst a; vm_compute in E; discriminate|injection Eq as <- _ _; cbn in Ln; lia]]|]). destruct j; discriminate Hd.
Qed.
Example C41_case : operators tree "input" "tree" /\ wildcard_of tree = None /\ (forall a l, assoc_of tree a = Some (l, ANone) -> fallback_of tree a = None) /\
  (forall j a l, starts_with tree j "tree" a -> assoc_of tree a <> Some (l, ANone)) /\ types_ok tree /\ (forall c args x, exists x' v, u_block tree_sem c args x = (x', inl v)) /\ tokens_wf tree_b tree_in /\
  meant tree tree_sem eq "input" (reading tree_b tree_sem tree_in) [] [] (TBin "+" (TInt 1) (TBin "*" (TInt 2) (TInt 3))) tree_good /\ nested tree tree_good /\
  meant tree tree_sem eq "input" (reading tree_b tree_sem tree_in) [] [] (TBin "*" (TBin "+" (TInt 1) (TInt 2)) (TInt 3)) tree_bad /\ ~ nested tree tree_bad.
Proof.
  assert (E : reading tree_b tree_sem tree_in = [("Integer", TInt 1); ("Plus", TUnit); ("Integer", TInt 2); ("Mult", TUnit); ("Integer", TInt 3)]) by (vm_compute; reflexivity).
  destruct C39_case as (H1 & H2 & H3 & _ & _ & H4). splits; auto using tree_operators, tree_types; try exact tree_assoc.
  - intros c args x. eexists _, _. reflexivity.
  - rewrite E. unfold tree_good, tsum, tmul, tnum. mtree.
  - apply nested_b_ok. vm_compute. reflexivity.
  - rewrite E. unfold tree_bad, tsum, tmul, tnum. mtree.
Qed.

(** C40: an [if] with an optional [else], where [Else] is declared after [If] *)
Definition ifs := [DType 0 "input" (T "TestTree"); DType 0 "st" (T "TestTree"); DType 0 "Num" (T "i32"); DAssoc ANone ["If"]; DAssoc ANone ["Else"];
  rc "input" [al "st"] 1; rc "st" [al "Num"] 2; rc "st" [sy "If"; al "st"] 3; rc "st" [sy "If"; al "st"; sy "Else"; al "st"] 4].
Definition ifs_sem : tsem := std (fun c l x => ok x match c, l with
  | 1, [v] => v | 2, [v] => v | 3, [v] => TUn "if" v | 4, [v; w] => TBin "if" v w | _, _ => TUnit end).
Definition ifs_b : built := Eval vm_compute in get (build 300 ida ifs).
Lemma ifs_expands : expands ifs ifs_b. Proof. apply expands_by. vm_compute. reflexivity. Qed.
Lemma ifs_usable : usable ifs ifs_b. Proof. apply fine_b_ok. vm_compute. reflexivity. Qed.
Definition ifs_in := tks ifs_b [u "If"; u "If"; d "Num" (TInt 1); u "Else"; d "Num" (TInt 2)].
Definition inum := LRule 1 [LTok "Num"].
Definition ifs_good := LRule 0 [LRule 2 [LTok "If"; LRule 3 [LTok "If"; inum; LTok "Else"; inum]]].
Definition ifs_bad := LRule 0 [LRule 3 [LTok "If"; LRule 2 [LTok "If"; inum]; LTok "Else"; inum]].
Lemma ifs_both : meant ifs ifs_sem (taken ifs) "input" (reading ifs_b ifs_sem ifs_in) [] [] (TUn "if" (TBin "if" (TInt 1) (TInt 2))) ifs_good /\
  meant ifs ifs_sem (taken ifs) "input" (reading ifs_b ifs_sem ifs_in) [] [] (TBin "if" (TUn "if" (TInt 1)) (TInt 2)) ifs_bad.
Proof.
  assert (E : reading ifs_b ifs_sem ifs_in = [("If", TUnit); ("If", TUnit); ("Num", TInt 1); ("Else", TUnit); ("Num", TInt 2)]) by (vm_compute; reflexivity). rewrite E.
  split; unfold ifs_good, ifs_bad, inum; mtree.
Qed.
Example C40_case : wildcard_of ifs = None /\ (forall a l, assoc_of ifs a = Some (l, ANone) -> fallback_of ifs a = None) /\ tokens_wf ifs_b ifs_in /\
  (exists pp, api_run 300 (bt_tables ifs_b) ifs_sem [] ifs_in = ROk (TUn "if" (TBin "if" (TInt 1) (TInt 2)), []) pp /\ ~ dropped pp) /\
  (exists di dj, shorter ifs 2 3 di dj "Else" /\ tok_over ifs "Else" di /\ ~ rule_over ifs di "Else") /\ ~ attached ifs ifs_bad.
Proof.
  assert (A : exists di dj, shorter ifs 2 3 di dj "Else" /\ tok_over ifs "Else" di /\ ~ rule_over ifs di "Else").
  { eexists _, _. splits.
    - unfold shorter. splits; try reflexivity. exists [sy "If"; al "st"], (sy "Else"), [al "st"]. splits; [reflexivity| |].
      + repeat constructor; now eexists _, _, _, _.
      + left. eexists _, _. split; [reflexivity|split; reflexivity].
    - exists 2, ANone, 1, ANone. splits; try reflexivity. left. lia.
    - intros (i & u & j & v & Ha & Hd & H). vm_compute in Ha, Hd. injection Ha as <- <-. injection Hd as <- <-. lia. }
  splits; [reflexivity|intros a l _; reflexivity|apply tokens_wf_b_ok; vm_compute; reflexivity|apply ran_ok_run; vm_compute; reflexivity|exact A|].
  intros [_ AO]. destruct A as (di & dj & S & _ & N). apply N. apply (AO 2 3 di dj [LTok "If"; inum] "Else" ["Num"]); auto.
  apply (oc_rule _ _ 0 [] _ []). apply (oc_rule _ _ 3 [LTok "If"] (LRule 2 [LTok "If"; inum]) [LTok "Else"; inum]). apply oc_here.
Qed.

(** C42: the letters of pass/error3.rs, the caller adding a mark after each *)
Definition mark (n : nat) (x : txtra) : txtra := push x (TInt n).
Definition marked : list (token tval * (txtra -> txtra)) := combine (tks error3_b [d "Letter" (ch "A"); d "Letter" (ch "B")]) [mark 1; mark 2].
Lemma error3_usable : usable error3 error3_b. Proof. apply fine_b_ok. vm_compute. reflexivity. Qed.
Example C42_case : expands error3 error3_b /\ usable error3 error3_b /\ Main.plain error3 /\ types_ok error3 /\ tokens_wf error3_b (map fst marked) /\ start_of error3 = Some "start" /\
  timed error3 error3_sem eq "start" (reading_with error3_b error3_sem marked) [] [TInt 1; ch "A"; TInt 2; ch "B"] TUnit /\
  exists pp, api_with 300 (bt_tables error3_b) error3_sem [] marked = ROk (TUnit, [TInt 1; ch "A"; TInt 2; ch "B"]) pp /\ ~ dropped pp.
Proof.
  splits; [apply expands_by; vm_compute; reflexivity|exact error3_usable|apply plain_b_ok; vm_compute; reflexivity|apply types_b_ok; vm_compute; reflexivity|apply tokens_wf_b_ok; vm_compute; reflexivity|reflexivity| |].
  - assert (E : reading_with error3_b error3_sem marked = [("Letter", (ch "A", mark 1)); ("Letter", (ch "B", mark 2))]) by (vm_compute; reflexivity). rewrite E.
    apply (ti_rule error3 error3_sem eq (nth 0 (rules_in error3) (mkDr "" [] None None)) _ [TUnit] TUnit [] [TInt 1; ch "A"; TInt 2; ch "B"]); [cbn; auto| |vm_compute; reflexivity].
    apply (ti_cons error3 error3_sem eq _ _ [_; _] [] _ [TInt 1; ch "A"; TInt 2; ch "B"]); [|constructor]. apply ti_one.
    apply (ti_rule error3 error3_sem eq (nth 2 (rules_in error3) (mkDr "" [] None None)) _ [TUnit; ch "B"] TUnit [] [TInt 1; ch "A"; TInt 2]); [cbn; auto| |vm_compute; reflexivity].
    apply (ti_cons error3 error3_sem eq _ _ [_] [_] _ [TInt 1; ch "A"]).
    + apply ti_one. apply (ti_rule error3 error3_sem eq (nth 1 (rules_in error3) (mkDr "" [] None None)) _ [ch "A"] TUnit [] [TInt 1]); [cbn; auto| |vm_compute; reflexivity].
      apply (ti_cons error3 error3_sem eq _ _ [_] [] _ [TInt 1]); [|constructor]. apply ti_one. apply (ti_tok error3 error3_sem eq "Letter" (ch "A") (mark 1) "Letter"); [reflexivity|split; reflexivity].
    + apply (ti_cons error3 error3_sem eq _ _ [_] [] _ [TInt 1; ch "A"; TInt 2]); [|constructor]. apply ti_one. apply (ti_tok error3 error3_sem eq "Letter" (ch "B") (mark 2) "Letter" _ [TInt 1; ch "A"]); [reflexivity|split; reflexivity].
  - set (r := api_with 300 (bt_tables error3_b) error3_sem [] marked). assert (Hr : match r with ROk q pp => q = (TUnit, [TInt 1; ch "A"; TInt 2; ch "B"]) /\ dropped_b pp = false | _ => False end) by (vm_compute; split; reflexivity).
    destruct r as [q pp|? ?| |]; try contradiction. destruct Hr as [-> Hd]. exists pp. split; auto. intros (a & Ha). assert (dropped_b pp = true); [|congruence]. apply existsb_exists. eauto.
Qed.

(** C43: the enum of pass/extra_token.rs, whose accessors find the shared part in every variant *)
Definition extok_b : built := Eval vm_compute in get (build 300 ida extra_token).
Lemma extok_expands : expands extra_token extok_b. Proof. apply expands_by. vm_compute. reflexivity. Qed.
Example C43_case : expands extra_token extok_b /\ flat_decls extra_token /\ extra_token_of extra_token = Some usize /\
  token_enum (bt_grammar extok_b) = GOk [mkVariant "One" (Some (TyPair usize (TyName "String"))) (Some AFirst); mkVariant "Two" (Some (TyPair usize (TyName "i32"))) (Some AFirst);
    mkVariant "Three" (Some (TyPair usize (TyPair (TyName "char") (TyName "char")))) (Some AFirst); mkVariant "Eol" (Some usize) (Some AWhole)].
Proof.
  splits; [exact extok_expands|apply flat_b_ok; vm_compute; reflexivity|reflexivity|vm_compute; reflexivity].
Qed.

(** C44: pass/typed_error.rs; "One Two" is given up for the wrong One, and the Two after it is dropped silently.  Without [error] (pass/error2.rs) four tokens
    are passed over and the others are read. *)
Definition typed_error : list decl := DType 0 "error" (T "char") :: lines_rules (al "error").
Definition typed_error_b : built := Eval vm_compute in get (build 300 ida typed_error).
Definition mend_in := tks typed_error_b [u "One"; u "Two"; u "Three"; u "One"; u "Two"; u "One"; u "Two"; u "Eol"].
Definition noisy_in := tks error2_b [u "Eol"; u "One"; u "Two"; u "Two"; u "Eol"; u "Three"; u "Eol"].
Lemma typed_error_expands : expands typed_error typed_error_b. Proof. apply expands_by. vm_compute. reflexivity. Qed.
Lemma typed_error_usable : usable typed_error typed_error_b. Proof. apply fine_b_ok. vm_compute. reflexivity. Qed.
Lemma error2_usable : usable error2 error2_b. Proof. apply fine_b_ok. vm_compute. reflexivity. Qed.
Example C44_case : expands typed_error typed_error_b /\ usable typed_error typed_error_b /\ tokens_wf typed_error_b mend_in /\
  (exists pp, api_run 300 (bt_tables typed_error_b) typed_error_sem [] mend_in = ROk (TUnit, map ch ["1"; "X"; "0"]) pp /\
     fates (ps_log pp) = [Shifted; Shifted; Shifted; Shifted; Shifted; Reported; Silent; Shifted]) /\
  expands error2 error2_b /\ usable error2 error2_b /\ tokens_wf error2_b noisy_in /\
  (exists pp, api_run 300 (bt_tables error2_b) error1_sem [] noisy_in = ROk (TUnit, map ch ["X"; "0"]) pp /\
     fates (ps_log pp) = [Reported; Shifted; Shifted; Silent; Silent; Shifted; Shifted]).
Proof.
  splits; [exact typed_error_expands|exact typed_error_usable|apply tokens_wf_b_ok; vm_compute; reflexivity|eexists; split; vm_compute; reflexivity|exact error2_expands|exact error2_usable|apply tokens_wf_b_ok; vm_compute; reflexivity|eexists; split; vm_compute; reflexivity].
Qed.
(** What the theorem says of the first run *)
Example C44_shown : exists v, mended typed_error typed_error_sem (taken typed_error) (fun k => tok_name typed_error_b (fst k)) "start"
  (combine mend_in [Shifted; Shifted; Shifted; Shifted; Shifted; Reported; Silent; Shifted]) [] (map ch ["1"; "X"; "0"]) v.
Proof.
  destruct C44_case as (EX & US & TW & (pp & Hr & Hf) & _). destruct (mended_means _ _ EX US _ _ _ _ _ _ _ TW Hr) as (s & v & Hs & _ & Hm & _). rewrite Hf in Hm. injection Hs as <-. eauto.
Qed.
(** The same reading written out: the error stands for One, Two and the two wrong tokens, and its value, which the block of [line0] pushes, is what the handler returned. *)
Example C44_reading : mended typed_error typed_error_sem (taken typed_error) (fun k => tok_name typed_error_b (fst k)) "error"
  (skipn 3 (combine (firstn 7 mend_in) [Shifted; Shifted; Shifted; Shifted; Shifted; Reported; Silent])) [ch "1"] (map ch ["1"; "X"]) (ch "0").
Proof.
  assert (M : mentions typed_error "error") by (exists (nth 4 typed_error (DModule "")); split; [vm_compute; tauto|vm_compute; tauto]).
  assert (T : forall k n, tok_name typed_error_b (fst k) = n -> stands typed_error n n -> forall x, mended_elem typed_error typed_error_sem (taken typed_error) (fun k => tok_name typed_error_b (fst k)) ([n], false, None) [(k, Shifted)] x x (payload typed_error_sem k)).
  { intros k n Hn HS x. constructor. apply mn_tok with (b := n); auto. left. rewrite Hn. constructor. }
  assert (Hp : forall n, In ([n], false, None) [sy "One"; sy "Two"; sy "Three"] -> piece typed_error ([n], false, None)).
  { intros n Hn. split; [intros al0 E; vm_compute in Hn; injection E as -> <-; repeat destruct Hn as [Hn|Hn]; discriminate || contradiction|]. eexists. split; [do 5 right; left; reflexivity|]. left. exact Hn. }
  vm_compute combine. cbn [skipn].
  apply (mn_more _ _ _ _ [] [_; _; _] [] []) with (x1 := map ch ["1"; "X"]); [exact M|constructor| |constructor].
  apply (mn_error _ _ _ _ [sy "One"; sy "Two"] [_; _] [TUnit; TUnit]) with (x1 := [ch "1"]); [exact M|repeat constructor; apply Hp; cbn; auto| |exists []; reflexivity].
  apply (mn_cons _ _ _ _ _ _ [_] [_]) with (x1 := [ch "1"]); [apply (T (2, None)); [vm_compute; reflexivity|split; reflexivity]|].
  apply (mn_cons _ _ _ _ _ _ [_] []) with (x1 := [ch "1"]); [apply (T (3, None)); [vm_compute; reflexivity|split; reflexivity]|constructor].
Qed.
(** C45: blocks and handlers that count their calls in the extra value *)
Definition count_sem : sem tval nat nat :=
  mkSem TUnit TUnit (fun v => v) (fun _ _ x => (S x, inl TUnit)) (fun _ _ x => (S x, inl TUnit)) (fun x => (S x, 0)) (fun _ x => (S x, 1)).
Example C45_case : one_each (fun x => x) count_sem /\ tokens_wf tree_b tree_in /\ exists pp, api_run 300 (bt_tables tree_b) count_sem 0 tree_in = ROk (TUnit, 6) pp /\ List.length (ps_log pp) = 12.
Proof.
  splits; [split; cbn; lia|apply tokens_wf_b_ok; vm_compute; reflexivity|]. eexists. split; vm_compute; reflexivity.
Qed.
Example C45_shown : exists k, forall ks n p, tokens_wf tree_b ks -> ends_with (api_run n (bt_tables tree_b) count_sem 0 ks) p -> ps_extra p <= k * S (List.length ks).
Proof.
  destruct C06_tree_case as (_ & H1 & H2 & H3). destruct (linear_calls _ _ tree_expands tree_usable (or_intror H1) (or_intror (or_introl H2)) H3) as (k & Hk).
  exists k. intros ks n p Hks Hp. exact (Hk _ _ _ count_sem (fun x => x) 0 ks (proj1 C45_case) Hks n p Hp).
Qed.
(** C46: a grammar with precedences, a fallback, a class and an optional element, and the same with the directives at the end and the rules of [s] and the rule without
    precedence moved *)
Definition i32 := Some (TyName "i32").
Definition end_rule := DRule "s" [(["e"], false, Some "x"); (["End"], true, None)] (Some 1) None.
Definition order1 : list decl :=
  [DStartSymbol "s"; DAssoc ALeft ["Plus"]; DAssoc ALeft ["Times"]; DType 0 "Num" i32; DType 0 "Word" i32; DType 0 "e" i32; DType 0 "s" i32; DFallback "Num" ["Word"]; DTokenClass "End" ["Dot"; "Semi"];
   end_rule; ra "e" ["e"; "Plus"; "e"] 2; ra "e" ["e"; "Times"; "e"] 3; ra "e" ["Num"] 4].
Definition order2 : list decl :=
  [ra "e" ["Num"] 4; DTokenClass "End" ["Dot"; "Semi"]; ra "e" ["e"; "Plus"; "e"] 2; DAssoc ALeft ["Plus"]; ra "e" ["e"; "Times"; "e"] 3; end_rule; DAssoc ALeft ["Times"]; DFallback "Num" ["Word"];
   DType 0 "e" i32; DType 0 "Word" i32; DType 0 "s" i32; DType 0 "Num" i32; DStartSymbol "s"].
Definition order1_b := Eval vm_compute in get (build 300 ida order1).
Definition order2_b := Eval vm_compute in get (build 300 ida order2).
Definition dtk (b : built) (l : list (string * option val)) : list (token val) := map (fun q => (index_str (fst q) (t_names (bt_tables b)), snd q)) l.
Definition order_in : list (string * option val) := [("Num", Some (VTok 1)); ("Plus", None); ("Word", Some (VTok 2)); ("Times", None); ("Num", Some (VTok 3)); ("Semi", None)].
Lemma order_rearranged : rearranged order1 order2.
Proof.
  split; [|reflexivity|reflexivity]. apply NoDup_Permutation.
  - repeat constructor; cbn; intuition discriminate.
  - repeat constructor; cbn; intuition discriminate.
  - intros x. cbn. tauto.
Qed.
Lemma order_apart : no_rivals order1.
Proof. repeat constructor; cbn; intros H; try exact H; discriminate. Qed.
Example C46_accepted_case : expands order1 order1_b /\ rearranged order1 order2 /\ no_rivals order1 /\ filter (weighed order1) (rules_in order1) = filter (weighed order1) (rules_in order2) /\
  no_self_fallback order1 /\ flat_decls order1 /\ elems_named order1 /\ classes_begin order1.
Proof.
  splits; [apply expands_by; vm_compute; reflexivity|exact order_rearranged|exact order_apart|reflexivity|apply no_self_b_ok; reflexivity|apply flat_b_ok; vm_compute; reflexivity| |].
  - intros lhs rhs c p toks o al Hd He ->. unfold order1 in Hd. repeat (destruct Hd as [E|Hd]; [try discriminate; injection E as <- <- <- <-; repeat (destruct He as [E|He]; [discriminate|]); destruct He|]). destruct Hd.
  - intros n ms H. pose proof (class_named _ _ _ H) as Hn. cbn in Hn. destruct Hn as [<-|[]]; vm_compute in H; injection H as <-; do 2 eexists; (split; [reflexivity|discriminate]).
Qed.
(** 1 + word * 3 ; as the first parser reads it *)
Definition order_val := VBlock 1 [VBlock 2 [VBlock 4 [VTok 1]; VUnit; VBlock 3 [VBlock 4 [VTok 2]; VUnit; VBlock 4 [VTok 3]]]].
Example C46_case : expands order1 order1_b /\ usable order1 order1_b /\ expands order2 order2_b /\ usable order2 order2_b /\ rearranged order1 order2 /\ no_rivals order1 /\
  filter (weighed order1) (rules_in order1) = filter (weighed order1) (rules_in order2) /\ types_ok order1 /\ wildcard_of order1 = None /\ (forall a l, assoc_of order1 a = Some (l, ANone) -> fallback_of order1 a = None) /\
  tokens_wf order1_b (dtk order1_b order_in) /\ tokens_wf order2_b (dtk order2_b order_in) /\ dtk order1_b order_in <> dtk order2_b order_in /\ reading order1_b dsem (dtk order1_b order_in) = reading order2_b dsem (dtk order2_b order_in) /\
  answers order1_b dsem [] (dtk order1_b order_in) order_val [4; 4; 4; 3; 2; 1].
Proof.
  splits; try (apply fine_b_ok; vm_compute; reflexivity); try (apply tokens_wf_b_ok; vm_compute; reflexivity); try (apply expands_by; vm_compute; reflexivity); try exact order_rearranged; try exact order_apart; try reflexivity.
  - apply types_b_ok. vm_compute. reflexivity.
  - intros a l H. unfold assoc_of in H. cbn in H. repeat match goal with H : context [String.eqb ?x ?y] |- _ => destruct (String.eqb x y) end; discriminate.
  - vm_compute. discriminate.
  - exists 300. apply ran_ok_run. vm_compute. reflexivity.
Qed.

(** ** C47: the report of a grammar with a conflict, and of one that precedences settle *)
Definition dangling : list decl :=
  let r l rhs := DRule l (map (fun n => ([n], false, None)) rhs) None None in
  [r "i" ["s"]; r "s" ["IF"; "s"]; r "s" ["IF"; "s"; "ELSE"; "s"]; r "s" ["X"]].
Definition sums : list decl :=
  let r l rhs := DRule l (map (fun n => ([n], false, None)) rhs) None None in
  [DAssoc ALeft ["PLUS"]; r "i" ["e"]; DVerbose; r "e" ["e"; "PLUS"; "e"]; r "e" ["X"]].
Fixpoint spaceless_b (s : string) : bool := match s with "" => true | String c s => negb (Ascii.eqb c " ") && spaceless_b s end.
Lemma spaceless_b_ok s : spaceless_b s = true -> spaceless s.
Proof. induction s as [|c s IH]; cbn; auto. intros H. apply andb_true_iff in H as [H1 H2]. split; auto. intros ->. discriminate. Qed.
Lemma names_spaceless_ok ds : forallb spaceless_b (flat_map mention ds) = true -> names_spaceless ds.
Proof. intros H n Hn. rewrite forallb_forall in H. apply spaceless_b_ok, H. unfold mentions in Hn. now apply in_flat_map in Hn. Qed.
Example dangling_report : names_spaceless dangling /\ names_spaceless sums /\
  build 300 ida dangling = GErr EConflicts /\
  match build_report 300 ida dangling with GOk (Some (ks, tail), true) => nth_error ks 3 = Some (mkSection "State 3:"
      ["      (1) s ::= IF s *"; "          s ::= IF s * ELSE s"]
      ["                             $ reduce 1"; "                          ELSE shift  4"; "                          ELSE reduce 1   ** Parsing conflict **"]) /\ tail = []
  | _ => False end /\
  match build_report 300 ida sums with GOk (Some (ks, tail), false) => nth_error ks 3 = Some (mkSection "State 3:"
      ["          e ::= e * PLUS e"; "      (1) e ::= e PLUS e *"]
      ["                             $ reduce 1"; "                          PLUS shift  2   -- dropped by precedence"; "                          PLUS reduce 1"]) /\
      tail = ["----------------------------------------------------"; "Symbols:"; "    0: $"; "    1: PLUS"; "    2: X"; "    3: error"; "    4: i"; "    5: e"; "    6: {default}"]
  | _ => False end.
Proof. split; [now apply names_spaceless_ok|]. split; [now apply names_spaceless_ok|]. vm_compute. repeat split; reflexivity. Qed.

(** ** C48: a list grammar and an extension of it *)
Definition small_ds : list decl := [rl "s" ["l"] 1; rl "l" ["l"; "A"] 2; rl "l" ["l"; "E"; "l"; "F"] 7; rl "l" [] 3].
Definition large_ds : list decl := [DTokenClass "K" ["C"; "D"]; rl "s" ["l"] 1; rl "l" ["l"; "K"] 4; rl "l" ["l"; "A"] 2; DFallback "A" ["B"]; rl "l" ["l"; "E"; "l"; "F"] 7; rl "l" [] 3; rl "l" ["l"; "x"] 5; rl "x" ["G"] 6; DType 0 "x" (Some (TyName "T"))].
Definition small_b : built := Eval vm_compute in get (build 300 ida small_ds).
Definition large_b : built := Eval vm_compute in get (build 300 ida large_ds).
Example C48_case : grown small_ds small_ds large_ds /\ expands small_ds small_b /\ usable small_ds small_b /\ expands large_ds large_b /\ usable large_ds large_b /\
  no_fallback small_ds /\ Main.plain large_ds /\ types_ok large_ds /\ start_of small_ds = start_of large_ds /\
  exists (ks1 ks2 : list (token val)), ks1 <> ks2 /\ tokens_wf small_b ks1 /\ tokens_wf large_b ks2 /\ reading small_b dsem ks1 = reading large_b dsem ks2 /\
    answers small_b dsem [] ks1 VUnit [3; 2; 3; 2; 7; 1] /\ answers large_b dsem [] ks2 VUnit [3; 2; 3; 2; 7; 1].
Proof. 
  splits.
  - unfold large_ds, small_ds. assert (N : forall n, existsb (String.eqb n) (flat_map mention [rl "s" ["l"] 1; rl "l" ["l"; "A"] 2; rl "l" ["l"; "E"; "l"; "F"] 7; rl "l" [] 3]) = false -> ~ mentions [rl "s" ["l"] 1; rl "l" ["l"; "A"] 2; rl "l" ["l"; "E"; "l"; "F"] 7; rl "l" [] 3] n).
    { intros n E (d & H1 & H2). apply not_true_iff_false in E. apply E, existsb_exists. exists n. split; [apply in_flat_map; eauto|apply String.eqb_refl]. }
    apply gr_add; [left; now apply N|]. apply gr_keep. apply gr_add; [exact Logic.I|]. apply gr_keep. apply gr_add; [exact Logic.I|]. do 2 apply gr_keep. do 2 (apply gr_add; [exact Logic.I|]). apply gr_add; [now apply N|constructor].
  - now apply expands_by.
  - apply fine_b_ok. vm_compute. reflexivity.
  - now apply expands_by.
  - apply fine_b_ok. vm_compute. reflexivity.
  - intros n. reflexivity.
  - split; [intros n|]; reflexivity.
  - apply types_b_ok. vm_compute. reflexivity.
  - reflexivity.
  - exists [(1, None); (2, None); (1, None); (3, None)], [(3, None); (5, None); (3, None); (6, None)]. splits.
    + discriminate.
    + apply tokens_wf_b_ok. vm_compute. reflexivity.
    + apply tokens_wf_b_ok. vm_compute. reflexivity.
    + vm_compute. reflexivity.
    + exists 300. apply ran_ok_run. vm_compute. reflexivity.
    + exists 300. apply ran_ok_run. vm_compute. reflexivity.
Qed.

(** C49: a calculator with an optional symbol, a class, a fallback and error recovery, in which
    two tokens swap their names. *)
Definition swap (a : ident) : ident :=
  if String.eqb a "Plus" then "Times" else if String.eqb a "Times" then "Plus" else if String.eqb a "expr" then "e" else if String.eqb a "Num" then "Z" else a.
Definition calc_ds : list decl :=
  [DType 0 "Num" (Some (TyName "i")); DType 0 "expr" (Some (TyName "i")); DAssoc ALeft ["Plus"]; DAssoc ALeft ["Times"]; DFallback "Plus" ["Or"]; DTokenClass "Sep" ["Semi"; "Comma"];
   DRule "prog" [(["expr"], false, Some "x"); (["Sep"], true, None)] (Some 1) None; DRule "prog" [(["error"], false, None); (["Semi"], false, None)] (Some 2) None;
   DRule "expr" [(["expr"], false, Some "x"); (["Plus"], false, None); (["expr"], false, Some "y")] (Some 3) None; DRule "expr" [(["expr"], false, Some "x"); (["Times"], false, None); (["expr"], false, Some "y")] (Some 4) None;
   DRule "expr" [(["Num"], false, None)] None None].
Definition calc_b : built := Eval vm_compute in get (build 300 ida calc_ds).
Definition calc_b' : built := Eval vm_compute in get (build 300 ida (map (ren_decl swap) calc_ds)).
Example C49_case : renaming swap calc_ds /\ expands calc_ds calc_b /\ expands (map (ren_decl swap) calc_ds) calc_b' /\ t_names (bt_tables calc_b) <> t_names (bt_tables calc_b') /\ same_parser calc_b calc_b' /\
  answers calc_b' dsem [] [(1, Some (VTok 1)); (2, None); (1, Some (VTok 2)); (3, None); (1, Some (VTok 3))] VUnit [4; 3; 1].
Proof.
  assert (RN : renaming swap calc_ds).
  { constructor; [reflexivity| | |]; intros a; [intros b Ha Hb|intros Ha|intros Ha]; cbn in Ha; repeat destruct Ha as [<-|Ha]; try contradiction; try reflexivity; cbn in Hb; repeat destruct Hb as [<-|Hb]; try contradiction; try reflexivity; discriminate. }
  assert (E1 : expands calc_ds calc_b) by now apply expands_by. splits; auto.
  - now apply expands_by.
  - vm_compute. discriminate.
  - pose proof (renamed_build swap calc_ds RN 300 ida) as H. assert (H1 : build 300 ida calc_ds = GOk calc_b) by (vm_compute; reflexivity). assert (H2 : build 300 ida (map (ren_decl swap) calc_ds) = GOk calc_b') by (vm_compute; reflexivity). rewrite H1, H2 in H. apply (built_same swap), H.
  - exists 300. apply ran_ok_run. vm_compute. reflexivity.
Qed.

(** C50: with [%stack_size 4] a list read by a left-recursive rule may be of any length, one
    read by a right-recursive rule has at most three items. *)
Definition tail_left : list decl := [DStackSize 4 None; rl "s" ["l"] 1; rl "l" ["l"; "A"] 2; rl "l" ["A"] 3; rl "s" ["D"] 5].
Definition tail_right : list decl := [DStackSize 4 None; rl "s" ["l"] 1; rl "l" ["A"; "l"] 2; rl "l" ["A"] 3; rl "s" ["D"] 5].
Definition left_b : built := Eval vm_compute in get (build 300 ida tail_left).
Definition right_b : built := Eval vm_compute in get (build 300 ida tail_right).
Definition many (n : nat) : list (token val) := repeat (1, None) n.
Fixpoint left_tree (n : nat) : dtree := match n with 0 => LRule 2 [LTok "A"] | S n => LRule 1 [left_tree n; LTok "A"] end.
Fixpoint right_tree (n : nat) : dtree := match n with 0 => LRule 2 [LTok "A"] | S n => LRule 1 [LTok "A"; right_tree n] end.
Lemma tokens_wf_many b n : forallb (token_wf_b (bt_tables b)) [(1, @None val)] = true -> tokens_wf b (many n).
Proof. intros H. apply tokens_wf_b_ok in H. inversion H; subst. apply Forall_forall. intros k Hk. now apply repeat_spec in Hk as ->. Qed.
Lemma many_reading b n : tok_name b 1 = "A" -> reading b dsem (many n) = repeat ("A", VUnit) n.
Proof. intros H. unfold reading, many. induction n as [|n IH]; auto. cbn [repeat map fst]. rewrite H. f_equal. exact IH. Qed.
Lemma left_meant n : forall x, exists x' v, meant tail_left dsem eq "l" (repeat ("A", VUnit) (S n)) x x' v (left_tree n).
Proof.
  induction n as [|n IH]; intros x.
  - eexists _, _. refine (mt_rule tail_left dsem eq 2 _ _ _ _ _ _ _ _ eq_refl _ eq_refl). eapply (mt_cons _ _ _ _ _ [_] []); [|apply mt_nil]. apply mt_one. eapply mt_tok; [reflexivity|split; reflexivity].
  - destruct (IH x) as (x1 & v & H). eexists _, _. refine (mt_rule tail_left dsem eq 1 _ _ _ _ _ _ _ _ eq_refl _ eq_refl). replace (S (S n)) with (S n + 1) by lia. rewrite repeat_app. eapply mt_cons; [apply mt_one; exact H|].
    eapply (mt_cons _ _ _ _ _ [_] []); [|apply mt_nil]. apply mt_one. eapply mt_tok; [reflexivity|split; reflexivity].
Qed.
Lemma right_meant n : forall x, exists x' v, meant tail_right dsem eq "l" (repeat ("A", VUnit) (S n)) x x' v (right_tree n).
Proof.
  induction n as [|n IH]; intros x.
  - eexists _, _. refine (mt_rule tail_right dsem eq 2 _ _ _ _ _ _ _ _ eq_refl _ eq_refl). eapply (mt_cons _ _ _ _ _ [_] []); [|apply mt_nil]. apply mt_one. eapply mt_tok; [reflexivity|split; reflexivity].
  - destruct (IH x) as (x1 & v & H). eexists _, _. refine (mt_rule tail_right dsem eq 1 _ _ _ _ _ _ _ _ eq_refl _ eq_refl). eapply (mt_cons _ _ _ _ _ [_] (repeat _ (S n))).
    + apply mt_one. eapply mt_tok; [reflexivity|split; reflexivity].
    + rewrite <- (app_nil_r (repeat _ (S n))). eapply mt_cons; [apply mt_one; exact H|apply mt_nil].
Qed.
Lemma top_meant ds l w x x' v T : nth_error (rules_in ds) 0 = Some (mkDr "s" [([l], false, None)] (Some 1) None) -> meant ds dsem eq l w x x' v T ->
  exists x2 v2, meant ds dsem eq "s" w x x2 v2 (LRule 0 [T]).
Proof.
  intros H0 H. eexists _, _. refine (mt_rule ds dsem eq 0 _ _ _ _ _ _ _ _ H0 _ eq_refl). rewrite <- (app_nil_r w). eapply mt_cons; [apply mt_one; exact H|apply mt_nil].
Qed.
Lemma left_depth n : depth (left_tree n) <= 2.
Proof. induction n as [|n IH]; cbn [left_tree]; [cbn; lia|]. rewrite depth_rule. cbn [depths depth]. lia. Qed.
Lemma right_depth n : depth (right_tree n) = S n.
Proof. induction n as [|n IH]; cbn [right_tree]; [reflexivity|]. rewrite depth_rule. cbn [depths depth]. rewrite IH. lia. Qed.
Example C50_case :
  (expands tail_left left_b /\ usable tail_left left_b /\ plain tail_left /\ types_ok tail_left /\ limit_of tail_left = 4 /\
   forall n, exists m, forall m', m <= m' -> exists r pp, api_run m' (bt_tables left_b) dsem [] (many (S n)) = ROk r pp) /\
  (expands tail_right right_b /\ usable tail_right right_b /\ plain tail_right /\ types_ok tail_right /\ limit_of tail_right = 4 /\
   (forall n, n < 3 -> exists m, forall m', m <= m' -> exists r pp, api_run m' (bt_tables right_b) dsem [] (many (S n)) = ROk r pp) /\
   forall n, 3 <= n -> exists m, forall m', m <= m' -> stopped_full tail_right dsem (api_run m' (bt_tables right_b) dsem [] (many (S n)))).
Proof.
  assert (E1 : expands tail_left left_b) by now apply expands_by. assert (E2 : expands tail_right right_b) by now apply expands_by.
  assert (U1 : usable tail_left left_b) by (apply fine_b_ok; vm_compute; reflexivity). assert (U2 : usable tail_right right_b) by (apply fine_b_ok; vm_compute; reflexivity).
  assert (P1 : plain tail_left) by (apply plain_b_ok; vm_compute; reflexivity). assert (P2 : plain tail_right) by (apply plain_b_ok; vm_compute; reflexivity).
  assert (T1 : types_ok tail_left) by (apply types_b_ok; vm_compute; reflexivity). assert (T2 : types_ok tail_right) by (apply types_b_ok; vm_compute; reflexivity).
  assert (A2 : forall n, exists x' v, meant tail_right dsem eq "s" (reading right_b dsem (many (S n))) [] x' v (LRule 0 [right_tree n])).
  { intros n. rewrite many_reading by (vm_compute; reflexivity). destruct (right_meant n []) as (x' & v & H). eapply top_meant; [reflexivity|exact H]. }
  split; [|split; [exact E2|]]; splits; auto.
  - intros n. assert (HM : exists x' v, meant tail_left dsem eq "s" (reading left_b dsem (many (S n))) [] x' v (LRule 0 [left_tree n])).
    { rewrite many_reading by (vm_compute; reflexivity). destruct (left_meant n []) as (x' & v & H). eapply top_meant; [reflexivity|exact H]. }
    destruct HM as (x' & v & HM). destruct (stack_needed tail_left left_b E1 dsem U1 "s" (many (S n)) [] x' v _ P1 T1 ltac:(apply tokens_wf_many; vm_compute; reflexivity) eq_refl HM) as (m & H). exists m. intros m' Hm.
    destruct (proj1 (H m' Hm)) as (pp & Hp & _); [|eauto]. right. cbn [stack_for depths]. pose proof (left_depth n). change (limit_of tail_left) with 4. lia.
  - intros n Hn. destruct (A2 n) as (x' & v & HM). destruct (stack_needed tail_right right_b E2 dsem U2 "s" (many (S n)) [] x' v _ P2 T2 ltac:(apply tokens_wf_many; vm_compute; reflexivity) eq_refl HM) as (m & H). exists m. intros m' Hm.
    destruct (proj1 (H m' Hm)) as (pp & Hp & _); [|eauto]. right. cbn [stack_for depths]. rewrite right_depth. change (limit_of tail_right) with 4. lia.
  - intros n Hn. destruct (A2 n) as (x' & v & HM). destruct (stack_needed tail_right right_b E2 dsem U2 "s" (many (S n)) [] x' v _ P2 T2 ltac:(apply tokens_wf_many; vm_compute; reflexivity) eq_refl HM) as (m & H). exists m. intros m' Hm.
    apply (proj2 (H m' Hm)). cbn [stack_for depths]. rewrite right_depth. change (limit_of tail_right) with 4. lia.
Qed.
(** Two trees of [1 + 2 * 3] in the grammar of pass/tree.rs: the declared one needs two entries
    more, since the sum waits for the product. *)
Definition tree_needs_6 : bool := match api_run 300 (bt_tables tree_b) tree_sem [] tree_in with ROk _ pp => tallest tree_b pp =? 6 | _ => false end.
Example C50_operators_case : stack_for tree_good = 6 /\ stack_for tree_bad = 4 /\ limit_of tree = 100 /\
  exists r pp, api_run 300 (bt_tables tree_b) tree_sem [] tree_in = ROk r pp /\ tallest tree_b pp = 6.
Proof.
  splits; try (vm_compute; reflexivity). assert (H : tree_needs_6 = true) by (vm_compute; reflexivity). unfold tree_needs_6 in H.
  destruct (api_run 300 (bt_tables tree_b) tree_sem [] tree_in) as [r pp|e pp| |]; try discriminate H. exists r, pp. split; auto. now apply Nat.eqb_eq.
Qed.

(** C51: sums and products in layers need no precedences, so declaring some changes nothing: the
    wrong way round, after the rules with marks, or before them. *)
Definition layers : list decl := [rl "s" ["e"] 1; rl "e" ["e"; "Plus"; "t"] 2; rl "e" ["t"] 3; rl "t" ["t"; "Times"; "A"] 4; rl "t" ["A"] 5; rl "s" ["D"] 6].
Definition layers_marked : list decl :=
  [rl "s" ["e"] 1; rp "e" ["e"; "Plus"; "t"] 2 "Plus"; rp "e" ["t"] 3 "Plus"; DAssoc ARight ["Plus"]; rl "t" ["t"; "Times"; "A"] 4; rp "t" ["A"] 5 "Times"; rl "s" ["D"] 6; DAssoc ANone ["D"; "Times"]].
Definition layers_first : list decl := [DAssoc ALeft ["Times"]; DAssoc ANone ["A"; "Plus"]] ++ layers.
Definition layers_b : built := Eval vm_compute in get (build 300 ida layers).
Definition layers_first_b : built := Eval vm_compute in get (build 300 ida layers_first).
Example C51_case : expands layers layers_b /\ usable layers layers_b /\ types_ok layers /\ Claims26.marked [] layers layers_marked /\ NoDup (ranked layers_marked) /\
  (exists b', expands layers_marked b' /\ same_parser layers_b b') /\
  bare layers_first = layers /\ (forall n, In n (ranked layers_first) -> is_terminal_ident n = true /\ mentions layers n) /\ NoDup (ranked layers_first) /\ no_rivals layers /\
  expands layers_first layers_first_b /\ usable layers_first layers_first_b /\ t_names (bt_tables layers_b) <> t_names (bt_tables layers_first_b) /\
  answers layers_b dsem [] [(3, None); (1, None); (3, None); (2, None); (3, None)] VUnit [5; 3; 5; 4; 2; 1].
Proof.
  assert (E : expands layers layers_b) by now apply expands_by. assert (HM : Claims26.marked [] layers layers_marked).
  { unfold layers, layers_marked, rl, rp. repeat first [apply mk_nil|apply mk_line; [repeat constructor; cbn; tauto|]|apply mk_same; [reflexivity|]|apply mk_rule; [intros n [H|H]; try discriminate H; injection H as <-; split; [reflexivity|cbn; tauto]|]]. }
  assert (ND : NoDup (ranked layers_marked)) by (cbn; repeat constructor; cbn; intuition discriminate).
  splits; auto; try (now apply expands_by); try (apply fine_b_ok; vm_compute; reflexivity); try (vm_compute; discriminate).
  - apply types_b_ok. vm_compute. reflexivity.
  - destruct (marks_same layers layers_marked layers_b E HM ND) as (b' & H1 & H2 & _). eauto.
  - intros n Hn. cbn in Hn. assert (HL : In n (flat_map mention layers)) by (cbn; intuition (subst; auto 20)). apply in_flat_map in HL. split; [|exact HL]. repeat destruct Hn as [<-|Hn]; try reflexivity. contradiction.
  - cbn. repeat constructor; cbn; intuition discriminate.
  - unfold no_rivals, layers, rl. repeat constructor; auto.
  - exists 300. apply ran_ok_run. vm_compute. reflexivity.
Qed.

(** C52: lists in brackets with an optional comma before the last bracket, a class and a pair of
    alternatives.  In [unchoosy] the token that goes on a list may also come after it. *)
Definition choosy : list decl := [DTokenClass "C" ["A"; "B"]; DAssoc ALeft ["N"]; DRule "s" [(["L"], false, None); (["list"], false, None); (["K"], true, None); (["R"], false, None)] (Some 1) None;
  DRule "s" [(["D"; "E"], false, None)] (Some 2) None; rl "list" [] 3; rl "list" ["N"; "list"] 4; rl "list" ["C"; "L"; "list"; "R"; "list"] 5].
Definition choosy_b : built := Eval vm_compute in get (build 300 ida choosy).
Definition choosy_begin : list (ident * ident) := [("L", "s"); ("D", "s"); ("E", "s"); ("N", "list"); ("A", "list"); ("B", "list")].
Definition choosy_after : list (ident * ident * bool) :=
  flat_map (fun n => map (fun t => (t, n, false)) ["N"; "A"; "B"; "K"; "R"]) ["L"; "N"; "R"] ++ [("K", "list", false); ("R", "list", false); ("R", "K", true); ("L", "C", false)].
Definition unchoosy : list decl := [rl "s" ["L"; "list"; "K"] 1; rl "s" ["M"; "list"; "R"] 2; rl "list" [] 3; rl "list" ["K"; "list"] 4].
Example C52_case : chooses choosy /\ all_needed choosy /\ no_self_fallback choosy /\ elems_named choosy /\ classes_begin choosy /\ flat_decls choosy /\ expands choosy choosy_b /\ usable choosy choosy_b /\
  comes_after unchoosy "K" "list" false /\ ~ chooses unchoosy /\ build 300 ida unchoosy = GErr EConflicts.
Proof.
  assert (CA : comes_after unchoosy "K" "list" false).
  { apply (ca_next unchoosy "K" (mkDr "s" [(["L"], false, None); (["list"], false, None); (["K"], false, None)] (Some 1) None) [(["L"], false, None)] "list" false None [(["K"], false, None)]); [cbn; auto|reflexivity|]. apply bg_here, bg_tok. left. reflexivity. }
  splits; auto.
  - apply (chooses_b_ok choosy ["list"] choosy_begin choosy_after); vm_compute; reflexivity.
  - assert (LS : leads_to choosy "s") by (constructor; reflexivity). assert (LL : leads_to choosy "list") by (eapply (ld_rule choosy _ "list" false None (or_introl eq_refl)); [exact LS|cbn; auto]).
    assert (YL : forall o al, yields choosy (["list"], o, al)) by (intros o al; apply (yd_rule choosy (mkDr "list" [] (Some 3) None)); [cbn; tauto|constructor]).
    intros r Hr. cbn in Hr. repeat destruct Hr as [<-|Hr]; try contradiction; (split; [assumption|]); repeat first [apply yd_nil|apply yd_cons; [first [apply YL|eapply yd_tok; cbn; left; reflexivity]|]].
  - apply no_self_b_ok. vm_compute. reflexivity.
  - intros lhs rhs c p toks o al Hd He ->. unfold choosy in Hd. repeat (destruct Hd as [E|Hd]; [try discriminate; injection E as <- <- <- <-; repeat (destruct He as [E|He]; [discriminate|]); destruct He|]). destruct Hd.
  - intros n ms Hc. cbn [choosy class_of class_line rl] in Hc. destruct (string_dec n "C") as [->|HN]; [|destruct (String.eqb "C" n) eqn:E; [apply String.eqb_eq in E; congruence|destruct (String.eqb n "C") eqn:E'; [apply String.eqb_eq in E'; congruence|discriminate]]].
    cbn in Hc. injection Hc as <-. exists "A", ["B"]. split; auto. discriminate.
  - apply flat_b_ok. vm_compute. reflexivity.
  - now apply expands_by.
  - apply fine_b_ok. vm_compute. reflexivity.
  - intros C. refine (cho_after _ C (mkDr "list" [] (Some 3) None) (mkDr "list" [(["K"], false, None); (["list"], false, None)] (Some 4) None) _ _ "K" _ _ eq_refl eq_refl eq_refl _ CA); [cbn; auto 10|cbn; auto 10|left; reflexivity].
Qed.

(** ** C53: the shorthands of the documentation and what they stand for *)
(** User code in which block 90 is [{ A }], 91 is [{ Some(A) }] and 92 is [{ None }] *)
Definition short_sem : sem val (list nat) nat :=
  mkSem VUnit VNone VSome (fun c l x => match c, l with 90, [v] => (x, inl v) | 91, [v] => (x, inl (VSome v)) | 92, [] => (x, inl VNone) | _, _ => ((x ++ [c])%list, inl (VBlock c l)) end)
    (fun _ _ x => (x, inr 77)) (fun x => (x, 88)) (fun _ x => (x, 99)).
(** expr ::= Number; expr ::= LParen Number RParen; without and with blocks *)
Definition short_ds : list decl := [DType 0 "s" (Some (TyName "T")); DType 0 "expr" (Some (TyName "T")); DType 0 "Number" (Some (TyName "T")); ra "s" ["expr"] 1;
  DRule "expr" [(["Number"], false, None)] None None; DRule "expr" [(["LParen"], false, None); (["Number"], false, None); (["RParen"], false, None)] None None; rl "s" ["Dot"] 5].
Definition long_ds : list decl := [DType 0 "s" (Some (TyName "T")); DType 0 "expr" (Some (TyName "T")); DType 0 "Number" (Some (TyName "T")); ra "s" ["expr"] 1;
  DRule "expr" [(["Number"], false, Some "A")] (Some 90) None; DRule "expr" [(["LParen"], false, None); (["Number"], false, Some "A"); (["RParen"], false, None)] (Some 90) None; rl "s" ["Dot"] 5].
Definition short_b : built := Eval vm_compute in get (build 300 ida short_ds).
Definition long_b : built := Eval vm_compute in get (build 300 ida long_ds).
Definition pair_ok (ds1 ds2 : list decl) (b1 b2 : built) : Prop := expands ds1 b1 /\ usable ds1 b1 /\ expands ds2 b2 /\ usable ds2 b2 /\ Main.plain ds1 /\ no_fallback ds1 /\ types_ok ds1 /\ types_ok ds2.
Ltac pair_ok_tac := unfold pair_ok; splits; try (apply fine_b_ok; vm_compute; reflexivity); try (apply expands_by; vm_compute; reflexivity); try (apply types_b_ok; reflexivity);
  [apply plain_b_ok; reflexivity|unfold no_fallback; apply no_fallback_b_ok; reflexivity].
Definition parens : list (token val) := [(2, None); (1, Some (VTok 7)); (3, None)].
Example C53_block_case : Forall2 (handed short_ds (gives_back short_sem)) short_ds long_ds /\ short_ds <> long_ds /\ pair_ok short_ds long_ds short_b long_b /\
  tokens_wf short_b parens /\ tokens_wf long_b parens /\ reading short_b short_sem parens = reading long_b short_sem parens /\ answers short_b short_sem [] parens (VBlock 1 [VTok 7]) [1].
Proof.
  splits; try (apply tokens_wf_b_ok; vm_compute; reflexivity).
  - unfold short_ds, long_ds. repeat (apply Forall2_cons; [apply hd_same|]). apply Forall2_cons; [|apply Forall2_cons; [|apply Forall2_cons; [apply hd_same|apply Forall2_nil]]].
    + apply (hd_rule _ _ "expr" [] ["Number"] false [] None "A" 90 (TyName "T")); [reflexivity|discriminate|intros e []|]. intros v x. reflexivity.
    + apply (hd_rule _ _ "expr" [(["LParen"], false, None)] ["Number"] false [(["RParen"], false, None)] None "A" 90 (TyName "T")); [reflexivity|discriminate| |intros v x; reflexivity].
      intros e [<-|[<-|[]]]; split; reflexivity.
  - discriminate.
  - pair_ok_tac.
  - vm_compute. reflexivity.
  - exists 300. apply ran_ok_run. vm_compute. reflexivity.
Qed.
(** array ::= LParen list?(D) RParen and the same with optional_list *)
Definition maybe_ds : list decl := [DType 0 "list" (Some (TyName "T")); DType 0 "Item" (Some (TyName "T")); rl "s" ["array"] 1;
  DRule "array" [(["LParen"], false, None); (["list"], true, Some "D"); (["RParen"], false, None)] (Some 2) None; ra "list" ["Item"] 3; ra "list" ["list"; "Item"] 4].
Definition never_ds : list decl := [DType 0 "list" (Some (TyName "T")); DType 0 "Item" (Some (TyName "T")); rl "s" ["array"] 1;
  DRule "array" [(["LParen"], false, None); (["optional_list"], false, Some "D"); (["RParen"], false, None)] (Some 2) None; ra "list" ["Item"] 3; ra "list" ["list"; "Item"] 4].
Definition nomore_ds : list decl := never_ds ++ opt_lines (TyName "T") "list" "optional_list" "D" 91 92.
Definition maybe_b : built := Eval vm_compute in get (build 300 ida maybe_ds).
Definition nomore_b : built := Eval vm_compute in get (build 300 ida nomore_ds).
Definition items : list (token val) := [(2, None); (1, Some (VTok 7)); (3, None)].
Example C53_optional_case : Forall2 (unwrapped_decl "list" "optional_list") maybe_ds never_ds /\ maybe_ds <> never_ds /\ ~ mentions maybe_ds "optional_list" /\ FrontFacts.lower "optional_list" /\ or_unit (raw_type maybe_ds "list") = TyName "T" /\
  (forall v x, u_block short_sem 91 [v] x = (x, inl (v_some short_sem v))) /\ (forall x, u_block short_sem 92 [] x = (x, inl (v_none short_sem))) /\ pair_ok maybe_ds nomore_ds maybe_b nomore_b /\
  tokens_wf maybe_b items /\ tokens_wf nomore_b items /\ reading maybe_b short_sem items = reading nomore_b short_sem items /\ answers maybe_b short_sem [] items VUnit [3; 2; 1].
Proof.
  splits; try (apply tokens_wf_b_ok; vm_compute; reflexivity).
  - unfold maybe_ds, never_ds. repeat (apply Forall2_cons; [first [apply ud_same|apply ud_rule; repeat (apply Forall2_cons; [first [apply uw_same|apply uw_opt]|]); apply Forall2_nil]|]). apply Forall2_nil.
  - discriminate.
  - intros (d & H1 & H2). cbn in H1. repeat destruct H1 as [<-|H1]; try destruct H1; cbn in H2; intuition discriminate.
  - reflexivity.
  - reflexivity.
  - intros v x. reflexivity.
  - intros x. reflexivity.
  - pair_ok_tac.
  - vm_compute. reflexivity.
  - exists 300. apply ran_ok_run. vm_compute. reflexivity.
Qed.
(** expr ::= SmallNumber|BigNumber(B) { B } and the two rules *)
Definition alt_pre : list decl := [DType 0 "s" (Some (TyName "T")); DType 0 "expr" (Some (TyName "T")); DType 0 "Small" (Some (TyName "T")); DType 0 "Big" (Some (TyName "T")); ra "s" ["expr"] 1].
Definition alt_ds : list decl := alt_pre ++ DRule "expr" ([] ++ (["Small"; "Big"], false, Some "B") :: [(["End"], false, None)]) (Some 90) None :: [].
Definition each_ds : list decl := alt_pre ++ rule_each "expr" [] ["Small"; "Big"] (Some "B") [(["End"], false, None)] (Some 90) None ++ [].
Definition alt_b : built := Eval vm_compute in get (build 300 ida alt_ds).
Definition each_b : built := Eval vm_compute in get (build 300 ida each_ds).
Definition big_end : list (token val) := [(2, Some (VTok 7)); (3, None)].
Example C53_alternatives_case : pair_ok alt_ds each_ds alt_b each_b /\ List.length (rules_in each_ds) = 3 /\
  tokens_wf alt_b big_end /\ tokens_wf each_b big_end /\ reading alt_b short_sem big_end = reading each_b short_sem big_end /\ answers alt_b short_sem [] big_end (VBlock 1 [VTok 7]) [1].
Proof.
  splits; try (apply tokens_wf_b_ok; vm_compute; reflexivity).
  - pair_ok_tac.
  - reflexivity.
  - vm_compute. reflexivity.
  - exists 300. apply ran_ok_run. vm_compute. reflexivity.
Qed.
(** x ::= Item? Item cannot be parsed with one token of lookahead, written out or not *)
Definition clash_ds : list decl := [rl "s" ["x"] 1; DRule "x" [(["Item"], true, None); (["Item"], false, None)] (Some 2) None].
Definition clash_ds' : list decl := [rl "s" ["x"] 1; DRule "x" [(["maybe_item"], false, None); (["Item"], false, None)] (Some 2) None].
Definition alike_ok (ds1 ds' : list decl) (q o : ident) : Prop := Forall2 (unwrapped_decl q o) ds1 ds' /\ ~ mentions ds1 o /\ FrontFacts.lower o /\ q <> o /\ (forall a, ~ has_elem ds' ([q], true, a)) /\ (exists a, has_elem ds1 ([q], true, a)) /\
  Main.plain ds1 /\ no_self_fallback ds1 /\ elems_named ds1 /\ classes_begin ds1 /\ flat_decls ds1.
Example C53_accepted_case : alike_ok maybe_ds never_ds "list" "optional_list" /\ expands maybe_ds maybe_b /\ expands nomore_ds nomore_b /\ alike_ok clash_ds clash_ds' "Item" "maybe_item" /\
  build 300 ida clash_ds = GErr ENotReduced /\ build 300 ida (clash_ds' ++ opt_lines (or_unit (raw_type clash_ds "Item")) "Item" "maybe_item" "D" 91 92) = GErr ENotReduced.
Proof.
  assert (NAMED : forall ds, forallb (fun r => forallb (fun e => match fst (fst e) with [] => false | _ => true end) (d_rhs r)) (rules_in ds) = true -> elems_named ds).
  { intros ds H lhs rhs c p toks b a Hd He ->. rewrite forallb_forall in H. assert (HR : In (mkDr lhs rhs c p) (rules_in ds)).
    { clear -Hd. induction ds as [|d ds IH]; [destruct Hd|]. destruct Hd as [->|Hd]; [now left|]. specialize (IH Hd). destruct d; cbn; auto. }
    specialize (H _ HR). rewrite forallb_forall in H. specialize (H _ He). discriminate. }
  unfold alike_ok. splits; try (apply NAMED; reflexivity); try (apply no_self_b_ok; vm_compute; reflexivity); try (apply flat_b_ok; vm_compute; reflexivity); try (apply plain_b_ok; reflexivity); try reflexivity; try discriminate;
    try (apply expands_by; vm_compute; reflexivity); try (intros n ms H; discriminate H).
  - unfold maybe_ds, never_ds. repeat (apply Forall2_cons; [first [apply ud_same|apply ud_rule; repeat (apply Forall2_cons; [first [apply uw_same|apply uw_opt]|]); apply Forall2_nil]|]). apply Forall2_nil.
  - intros (d & H1 & H2). cbn in H1. repeat destruct H1 as [<-|H1]; try destruct H1; cbn in H2; intuition discriminate.
  - intros a (r & H1 & H2). cbn in H1. repeat destruct H1 as [<-|H1]; try destruct H1; cbn in H2; intuition discriminate.
  - exists (Some "D"). eexists. split; [cbn; right; left; reflexivity|cbn; auto].
  - unfold clash_ds, clash_ds'. repeat (apply Forall2_cons; [first [apply ud_same|apply ud_rule; repeat (apply Forall2_cons; [first [apply uw_opt|apply uw_same]|]); apply Forall2_nil]|]). apply Forall2_nil.
  - intros (d & H1 & H2). cbn in H1. repeat destruct H1 as [<-|H1]; try destruct H1; cbn in H2; intuition discriminate.
  - intros a (r & H1 & H2). cbn in H1. repeat destruct H1 as [<-|H1]; try destruct H1; cbn in H2; intuition discriminate.
  - exists None. eexists. split; [cbn; right; left; reflexivity|cbn; auto].
Qed.

(** ** C54: a calculator with precedences; its recogniser, whose blocks and aliases are others; and the same with a
    block left out that cannot be *)
Definition calc_of (plus times num : list (option ident) * option nat) : list decl :=
  let r l ns q := DRule l (map (fun e => ([fst e], false, snd e)) (combine ns (fst q))) (snd q) None in
  [DType 0 "s" (Some (TyName "T")); DType 0 "e" (Some (TyName "T")); DType 0 "Num" (Some (TyName "T")); DAssoc ALeft ["Plus"]; DAssoc ALeft ["Times"];
   ra "s" ["e"] 1; r "e" ["e"; "Plus"; "e"] plus; r "e" ["e"; "Times"; "e"] times; r "e" ["Num"] num].
Definition with_values : list decl := calc_of ([Some "A"; None; Some "B"], Some 2) ([Some "A"; None; Some "B"], Some 3) ([None], None).
Definition with_blocks : list decl := calc_of ([Some "A"; None; Some "B"], Some 2) ([Some "A"; None; Some "B"], Some 3) ([Some "A"], Some 90).
Definition only_read : list decl := calc_of ([None; None; None], Some 12) ([None; None; None], Some 13) ([None], Some 14).
Definition not_told : list decl := calc_of ([None; None; None], None) ([None; None; None], Some 13) ([None], Some 14).
Definition values_b : built := Eval vm_compute in get (build 300 ida with_values).
Definition blocks_b : built := Eval vm_compute in get (build 300 ida with_blocks).
Definition read_b : built := Eval vm_compute in get (build 300 ida only_read).
(** 7 + 8 * 9 *)
Definition sum : list (token val) := [(1, Some (VTok 7)); (2, None); (1, Some (VTok 8)); (3, None); (1, Some (VTok 9))].
Definition both_ok (ds1 ds2 : list decl) (b1 b2 : built) : Prop := expands ds1 b1 /\ usable ds1 b1 /\ expands ds2 b2 /\ usable ds2 b2 /\ wildcard_of ds1 = None /\ (forall a l, assoc_of ds1 a = Some (l, ANone) -> fallback_of ds1 a = None) /\ types_ok ds1 /\ types_ok ds2.
Ltac both_ok_tac := unfold both_ok; splits; try (apply fine_b_ok; vm_compute; reflexivity); try (apply expands_by; vm_compute; reflexivity); try (apply types_b_ok; reflexivity); [reflexivity|intros a l _; reflexivity].
Ltac reblocked_tac := repeat (apply Forall2_cons; [first [apply rb_same; reflexivity|apply rb_rule; reflexivity]|]); apply Forall2_nil.
Example C54_trees_case : Forall2 reblocked with_values only_read /\ both_ok with_values only_read values_b read_b /\ tokens_wf values_b sum /\ tokens_wf read_b sum /\
  map fst (reading values_b short_sem sum) = map fst (reading read_b dsem sum) /\ (forall c args x, exists x' v, u_block dsem c args x = (x', inl v)) /\
  answers values_b short_sem [] sum (VBlock 1 [VBlock 2 [VTok 7; VBlock 3 [VTok 8; VTok 9]]]) [3; 2; 1] /\ answers read_b dsem [] sum (VBlock 1 [VBlock 12 []]) [14; 14; 14; 13; 12; 1].
Proof.
  splits; try (apply tokens_wf_b_ok; vm_compute; reflexivity); try (exists 300; apply ran_ok_run; vm_compute; reflexivity).
  - reblocked_tac.
  - both_ok_tac.
  - vm_compute. reflexivity.
  - intros c args x. cbn. eauto.
Qed.
Example C54_accepted_case : expands with_values values_b /\ no_self_fallback with_values /\ elems_named with_values /\ classes_begin with_values /\ flat_decls with_values /\ Forall2 reblocked with_values not_told /\ build 300 ida not_told = GErr ETypedNoCode.
Proof.
  splits; [apply expands_by; vm_compute; reflexivity|apply no_self_b_ok; vm_compute; reflexivity| | |apply flat_b_ok; vm_compute; reflexivity|reblocked_tac|vm_compute; reflexivity].
  - intros lhs rhs c p toks o al H He ->. cbn in H. repeat destruct H as [H|H]; try discriminate H; try contradiction; injection H as <- <- <- <-; cbn in He; intuition discriminate.
  - intros n ms H. discriminate H.
Qed.
(** The same syntax with no types at all, no blocks, another error type, a handler and a limit. *)
Definition untyped : list decl :=
  let r l ns := DRule l (map (fun n => ([n], false, None)) ns) None None in
  [DError (TyName "Err"); DStackSize 50 None; DSyntaxError 77; DAssoc ALeft ["Plus"]; DAssoc ALeft ["Times"]; DVerbose;
   r "s" ["e"]; r "e" ["e"; "Plus"; "e"]; r "e" ["e"; "Times"; "e"]; r "e" ["Num"]].
Definition untyped_b : built := Eval vm_compute in get (build 300 ida untyped).
Definition bare_sum : list (token val) := [(3, None); (1, None); (3, None); (2, None); (3, None)].
Example C54_syntax_case : skeleton untyped = skeleton with_values /\ ~ Forall2 reblocked with_values untyped /\ both_ok with_values untyped values_b untyped_b /\ tokens_wf values_b sum /\ tokens_wf untyped_b bare_sum /\
  map fst (reading values_b short_sem sum) = map fst (reading untyped_b dsem bare_sum) /\ answers untyped_b dsem [] bare_sum VUnit [].
Proof.
  splits; try (apply tokens_wf_b_ok; vm_compute; reflexivity); try (exists 300; apply ran_ok_run; vm_compute; reflexivity).
  - reflexivity.
  - intros H. inversion H as [|d d' l l' HR HF]; subst. inversion HR.
  - both_ok_tac.
  - vm_compute. reflexivity.
Qed.
(** A list that says the same in other lines: the start symbol is written, a class is listed in two lines. *)
Definition in_one : list decl := [DTokenClass "K" ["A"; "B"]; DFallback "A" ["C"; "D"]; DRule "s" [(["K"], false, None); (["B"], true, None)] None None].
Definition in_two : list decl := [DFallback "A" ["D"]; DTokenClass "K" ["A"]; DFallback "A" ["C"]; DTokenClass "K" ["B"]; DRule "s" [(["K"], false, Some "Q"); (["B"], true, None)] (Some 3) None; DStartSymbol "s"].
Definition one_b : built := Eval vm_compute in get (build 300 ida in_one).
Definition two_b : built := Eval vm_compute in get (build 300 ida in_two).
Example C54_same_case : same_syntax in_one in_two /\ skeleton in_one <> skeleton in_two /\ both_ok in_one in_two one_b two_b /\
  exists ks1 ks2, tokens_wf one_b ks1 /\ tokens_wf two_b ks2 /\ map fst (reading one_b dsem ks1) = ["D"; "B"] /\ map fst (reading two_b dsem ks2) = ["D"; "B"] /\
    answers one_b dsem [] ks1 VUnit [] /\ answers two_b dsem [] ks2 VUnit [3].
Proof.
  splits; [|discriminate| |].
  - constructor; try reflexivity.
    + cbn. apply Forall2_cons; [|apply Forall2_nil]. constructor; reflexivity.
    + intros n. cbn. destruct (n =? "K")%string; reflexivity.
    + intros n. unfold fallback_of. cbn. destruct (n =? "C")%string, (n =? "D")%string; reflexivity.
  - unfold both_ok. splits; try (apply fine_b_ok; vm_compute; reflexivity); try (apply expands_by; vm_compute; reflexivity); try (apply types_b_ok; reflexivity); [reflexivity|intros a l H; discriminate H].
  - exists [(4, None); (2, None)], [(1, None); (4, None)].
    splits; try (apply tokens_wf_b_ok; vm_compute; reflexivity); try (exists 300; apply ran_ok_run; vm_compute; reflexivity); vm_compute; reflexivity.
Qed.
(** A type that is new in the list is the only reason to refuse it. *)
Example C54_beside_case : skeleton (DType 0 "s" (Some (TyName "T")) :: untyped) = skeleton with_values /\ build 300 ida (DType 0 "s" (Some (TyName "T")) :: untyped) = GErr ETypedNoCode.
Proof. split; [reflexivity|vm_compute; reflexivity]. Qed.
(** The conditions on [with_values] that acceptance needs are in C54_accepted_case. *)
Example C53_anyhow_case : Forall2 (handed with_values (gives_back short_sem)) with_values with_blocks /\ with_values <> with_blocks /\ both_ok with_values with_blocks values_b blocks_b /\
  tokens_wf values_b sum /\ tokens_wf blocks_b sum /\ reading values_b short_sem sum = reading blocks_b short_sem sum /\ answers blocks_b short_sem [] sum (VBlock 1 [VBlock 2 [VTok 7; VBlock 3 [VTok 8; VTok 9]]]) [3; 2; 1].
Proof.
  splits; try (apply tokens_wf_b_ok; vm_compute; reflexivity); try (exists 300; apply ran_ok_run; vm_compute; reflexivity).
  - cbn. repeat (apply Forall2_cons; [apply hd_same|]). apply Forall2_cons; [|apply Forall2_nil].
    apply (hd_rule _ _ "e" [] ["Num"] false [] None "A" 90 (TyName "T")); [reflexivity|discriminate|intros e []|intros v x; reflexivity].
  - discriminate.
  - both_ok_tac.
  - vm_compute. reflexivity.
Qed.
