(** The properties of properties.jsonl, each proved in the other files.  This file holds only
    statements: [expands ds b] says that the macro accepts the declarations [ds] and generates
    [b]; [usable], [types_ok], [plain] and the other side conditions are defined in Main.v,
    TypeDecl.v and DeclSpec.v, and Examples.v shows grammars that meet them. *)
From Coq Require Import List String ZArith.
From Verif Require Import Base Syntax FrontEnd First States Actions Tables Runtime User Spec WfGrammar DeclSpec MeanSpec
  AutoFacts LalrFacts ActFacts LookFacts TabFacts PackFacts PackMore Sizes BuildFacts RunFacts SafeFacts SoundFacts AbsFacts HaltFacts
  CompleteFacts RefFacts GramFacts LangFacts TypeFacts MeanFacts TypeDecl FrontFacts Demo Refutations Refutations2 Refutations3 Main Claims Claims2 DeclMore Claims3 Claims4 Names Claims5 Claims6 ExpandFacts PanicFacts Claims7 Claims8 TreeSpec Claims9 CycleSpec CycleFacts Claims10 Claims12 SourceText SourceFacts Claims11 FaultSpec FaultFacts FaultDuel FaultAct PanicSort FaultBack FaultNone Reorder ReorderFront Claims13 ReorderStates ReorderActs ReorderRun Claims14 KeptFacts PrecSpec Claims15 OpFacts Claims16 NestFacts Claims17 Session TimeSpec TimeFacts Claims18 TokenText Claims19 MendSpec MendFacts Claims20 HiddenFacts LinearFacts LinearRun Claims21 OrderSpec OrderFacts IsoFacts OrderIso IsoRun OrderRun Claims22 Claims23 Rename RenameBack Claims24 Letters DepthFacts TraceFacts Claims25 Claims26 ChooseSpec Claims27 Claims28 OptIso Claims29 BlockIso Claims30 Claims31 Report ReportSpec ReportFacts Refutations4.
Import ListNotations.
Open Scope string_scope. Open Scope nat_scope. Open Scope list_scope.


(** ** C01. An accepted input really is a sentence, and the result is its value *)

(** Whatever is accepted without dropping a token is a reading of the start symbol as the declarations define it, with that value and that final extra value. *)
Theorem C01_accepted_input_means_result :
  forall (ds : list decl) (b : built),
  expands ds b ->
  usable ds b ->
  forall (V X E : Type) (sm : sem V X E) (n : nat) (x : X) (ks : list (token V)) 
    (r : V) (x' : X) (pp : parser (minor V) X V),
  tokens_wf b ks ->
  api_run n (bt_tables b) sm x ks = ROk (r, x') pp ->
  ~ dropped pp ->
  exists (s : ident) (v : V),
    start_of ds = Some s /\
    means ds sm (taken ds) s (reading b sm ks) x x' v /\ r = root_value ds sm s v.
Proof. exact @accepted_means. Qed.
Print Assumptions C01_accepted_input_means_result.

(** Without [rows_apart] it is false: the packed rows of this accepted grammar overlap and the parser accepts a non-sentence. *)
Theorem C01_colliding_rows_refuted :
  exists
    (ds : list decl) (b : built) (toks : list (token val)) (v : val) (x : list Syntax.code) 
  (p : parser (minor val) (list Syntax.code) val),
    build 300 ida ds = GOk b /\
    api_run 300 (bt_tables b) dsem [] toks = ROk (v, x) p /\
    (forall e : event,
     In e (ps_log p) ->
     e = EvAccept \/ (exists a : nat, e = EvShift a) \/ (exists r : nat, e = EvReduce r)) /\
    ~
    (exists t : tree (minor val), sentence (bt_grammar b) t (map (token_value (bt_tables b) dsem) toks)).
Proof. exact @soundness_refuted. Qed.
Print Assumptions C01_colliding_rows_refuted.

(** ** C02. Every sentence is accepted with the value of its tree *)

(** No precedences, no wildcard: each reading of the input as the start symbol is found, with no handler run on the way; the only other outcome is an overflow of the declared stack size. *)
Theorem C02_sentence_accepted :
  forall (ds : list decl) (b : built),
  expands ds b ->
  usable ds b ->
  forall (V X E : Type) (sm : sem V X E) (ks : list (token V)) (s : ident) (x x' : X) (v : V),
  plain ds ->
  types_ok ds ->
  tokens_wf b ks ->
  start_of ds = Some s ->
  means ds sm eq s (reading b sm ks) x x' v ->
  exists n : nat,
    forall n' : nat,
    n <= n' ->
    (exists pp : parser (minor V) X V,
       api_run n' (bt_tables b) sm x ks = ROk (root_value ds sm s v, x') pp /\
       Forall CleanFacts.peaceful (ps_log pp)) \/
    overflowed (bt_tables b) (user_hooks (bt_tables b) sm) (api_run n' (bt_tables b) sm x ks).
Proof. exact @sentence_accepted. Qed.
Print Assumptions C02_sentence_accepted.

(** ** C03. A grammar accepted without precedences is unambiguous *)

(** No precedences, tokens named singly: a token string has at most one derivation tree. *)
Theorem C03_one_tree :
  forall (ds : list decl) (b : built),
  expands ds b ->
  forall (s : ident) (w : list ident) (T1 T2 : dtree),
  (forall n : ident, assoc_of ds n = None) ->
  start_of ds = Some s ->
  Forall (fun a : ident => class_of ds a = None) w -> tree_of ds s w T1 -> tree_of ds s w T2 -> T1 = T2.
Proof. exact @trees_unique. Qed.
Print Assumptions C03_one_tree.

(** Trees are the derivations: a string has one exactly when it is produced. *)
Theorem C03_trees_cover :
  forall (ds : list decl) (n : ident) (w : list ident),
  says ds eq n w <-> (exists t : dtree, tree_of ds n w t).
Proof. exact @tree_iff. Qed.
Print Assumptions C03_trees_cover.

(** For any rule blocks, two readings of one input give the same value and the same extra value; blocks that build trees make this uniqueness of derivation trees. *)
Theorem C03_reading_unique :
  forall (ds : list decl) (b : built),
  expands ds b ->
  usable ds b ->
  forall (V X E : Type) (sm : sem V X E) (ks : list (token V)) (s : ident) (x x1 x2 : X) (v1 v2 : V),
  plain ds ->
  types_ok ds ->
  tokens_wf b ks ->
  start_of ds = Some s ->
  means ds sm eq s (reading b sm ks) x x1 v1 ->
  means ds sm eq s (reading b sm ks) x x2 v2 -> x1 = x2 /\ v1 = v2.
Proof. exact @value_unique. Qed.
Print Assumptions C03_reading_unique.

(** ** C04. No token is consumed that cannot continue a sentence *)

(** All symbols derive something: what has been consumed is the beginning of some sentence. *)
Theorem C04_consumed_is_prefix :
  forall (ds : list decl) (b : built),
  expands ds b ->
  usable ds b ->
  forall (V X E : Type) (sm : sem V X E) (n : nat) (x : X) (ks : list (token V))
    (pp : parser (minor V) X V),
  all_say ds ->
  tokens_wf b ks ->
  parse_all n (bt_tables b) (user_hooks (bt_tables b) sm) (new_parser (user_hooks (bt_tables b) sm) x)
    (map (token_value (bt_tables b) sm) ks) = ROk tt pp ->
  ~ dropped pp ->
  exists (s : ident) (w : list ident), start_of ds = Some s /\ says ds (taken ds) s (names b ks ++ w).
Proof. exact @prefix_valid. Qed.
Print Assumptions C04_consumed_is_prefix.

(** ** C05. No false syntax error on a viable prefix *)

(** Every prefix of a sentence is taken with no handler run, short of a stack overflow. *)
Theorem C05_prefix_accepted :
  forall (ds : list decl) (b : built),
  expands ds b ->
  usable ds b ->
  forall (V X E : Type) (sm : sem V X E) (ks1 ks2 : list (token V)) (s : ident) (x x' : X) (v : V),
  plain ds ->
  types_ok ds ->
  tokens_wf b (ks1 ++ ks2) ->
  start_of ds = Some s ->
  means ds sm eq s (reading b sm (ks1 ++ ks2)) x x' v ->
  exists n : nat,
    forall n' : nat,
    n <= n' ->
    let r :=
      parse_all n' (bt_tables b) (user_hooks (bt_tables b) sm)
        (new_parser (user_hooks (bt_tables b) sm) x) (map (token_value (bt_tables b) sm) ks1) in
    (exists pp : parser (minor V) X V, r = ROk tt pp /\ Forall CleanFacts.peaceful (ps_log pp)) \/
    overflowed (bt_tables b) (user_hooks (bt_tables b) sm) r.
Proof. exact @prefix_accepted. Qed.
Print Assumptions C05_prefix_accepted.

(** ** C06. parse() always returns *)

(** No name can turn into itself, which is always so without precedences, and the stack has a limit, or there is no hidden left recursion, or no precedences and all names say something: every run ends, also on wrong input. *)
Theorem C06_parse_returns :
  forall (ds : list decl) (b : built),
  expands ds b ->
  usable ds b ->
  forall (V X E : Type) (sm : sem V X E) (x : X) (ks : list (token V)),
  (forall n : ident, assoc_of ds n = None) \/ acyclic ds ->
  limit_of ds <> 0 \/ no_hidden ds \/ (forall n : ident, assoc_of ds n = None) /\ all_say ds ->
  types_ok ds ->
  tokens_wf b ks ->
  exists n : nat,
    forall n' : nat,
    n <= n' ->
    api_run n' (bt_tables b) sm x ks = api_run n (bt_tables b) sm x ks /\
    api_run n (bt_tables b) sm x ks <> RFuel.
Proof. exact @parse_returns. Qed.
Print Assumptions C06_parse_returns.

(** There is a limit unless the declarations set it to 0. *)
Theorem C06_default_limit :
  forall ds : list decl,
  (forall (n : nat) (ty : option ty), ~ In (DStackSize n ty) ds) -> limit_of ds = 100.
Proof. exact @default_limit. Qed.
Print Assumptions C06_default_limit.

(** With symbols that derive nothing and %stack_size 0 a parse can go on for ever on a wrong token. *)
Theorem C06_dead_symbols_refuted :
  exists (ds : list decl) (b : built) (toks : list (token val)),
    expands ds b /\
    usable ds b /\
    plain ds /\
    types_ok ds /\
    tokens_wf b toks /\
    limit_of ds = 0 /\ (forall fuel : nat, api_run fuel (bt_tables b) dsem [] toks = RFuel).
Proof. exact @dead_symbols_refuted. Qed.
Print Assumptions C06_dead_symbols_refuted.

(** With a cycle it is false: this accepted grammar with precedences loops forever on three tokens, whatever the limit. *)
Theorem C06_precedence_cycle_refuted :
  exists (ds : list decl) (b : built) (toks : list (token val)),
    expands ds b /\
    usable ds b /\
    no_hidden ds /\
    all_say ds /\
    types_ok ds /\
    tokens_wf b toks /\
    limit_of ds = 100 /\ (forall fuel : nat, api_run fuel (bt_tables b) dsem [] toks = RFuel).
Proof. exact @cycle_refuted. Qed.
Print Assumptions C06_precedence_cycle_refuted.

(** With precedences, hidden left recursion and %stack_size 0 it is false: the stack grows for ever on the first token. *)
Theorem C06_hidden_recursion_refuted :
  exists (ds : list decl) (b : built) (toks : list (token val)),
    expands ds b /\
    usable ds b /\
    acyclic ds /\
    all_say ds /\
    types_ok ds /\
    tokens_wf b toks /\
    limit_of ds = 0 /\ (forall fuel : nat, api_run fuel (bt_tables b) dsem [] toks = RFuel).
Proof. exact @hidden_recursion_refuted. Qed.
Print Assumptions C06_hidden_recursion_refuted.

(** ** C07. The generated parser never panics on its own *)

(** Neither the calls of parse nor a whole run with end_of_input panics, on any tokens. *)
Theorem C07_never_panics :
  forall (ds : list decl) (b : built),
  expands ds b ->
  usable ds b ->
  forall (V X E : Type) (sm : sem V X E) (n : nat) (x : X) (ks : list (token V)),
  types_ok ds ->
  tokens_wf b ks ->
  parse_all n (bt_tables b) (user_hooks (bt_tables b) sm) (new_parser (user_hooks (bt_tables b) sm) x)
    (map (token_value (bt_tables b) sm) ks) <> RPanic /\ api_run n (bt_tables b) sm x ks <> RPanic.
Proof. exact @never_panics. Qed.
Print Assumptions C07_never_panics.

(** Without [rows_apart] the generated parser can panic. *)
Theorem C07_colliding_rows_refuted :
  exists (ds : list decl) (b : built) (toks : list (token val)),
    build 300 ida ds = GOk b /\ api_run 300 (bt_tables b) dsem [] toks = RPanic.
Proof. exact @panic_refuted. Qed.
Print Assumptions C07_colliding_rows_refuted.

(** Without [types_ok] it can panic on 'impossible pattern' and on 'unexpected root type'. *)
Theorem C07_types_refuted :
  demo dsem pat_ds [1] = Panic_ /\ demo dsem root_ds [1] = Panic_.
Proof. exact @typing_refuted. Qed.
Print Assumptions C07_types_refuted.

(** ** C08. The packed action table is a faithful encoding *)

(** The packed tables decode to the recorded actions exactly when no row was put on top of another. *)
Theorem C08_faithful_iff_rows_apart :
  forall (ds : list decl) (b : built),
  expands ds b -> flat_decls ds -> PipeFacts.rows_apart b <-> faithful b.
Proof. exact @packed_exact. Qed.
Print Assumptions C08_faithful_iff_rows_apart.

(** A sufficient condition that does not look at the packed table. *)
Theorem C08_faithful_when_roomy :
  forall (ds : list decl) (b : built),
  expands ds b -> flat_decls ds -> PackMore.roomy (bt_grammar b) (bt_comp b) -> faithful b.
Proof. exact @packed_roomy. Qed.
Print Assumptions C08_faithful_when_roomy.

(** The packing loop does not ensure it: a state answers for a symbol it has no action for. *)
Theorem C08_packing_refuted :
  exists (ds : list decl) (b : built) (s la : nat),
    build 300 ida ds = GOk b /\
    s < t_nstate (bt_tables b) /\
    (forall a : action,
     In a (s_actions (pstate (bt_comp b) s)) -> a_la a <> la /\ a_la a <> g_dflt (bt_grammar b)) /\
    g_wild (bt_grammar b) = None /\
    (forall i : nat, sy_fb (gsym (bt_grammar b) i) = None) /\
    (exists n : nat,
       n < t_nstate (bt_tables b) /\
       find_shift_action (bt_tables b) (state_num (bt_grammar b) (bt_comp b) s) la = LAct n).
Proof. exact @packing_refuted. Qed.
Print Assumptions C08_packing_refuted.

(** A class listing a class is numbered among the tokens and breaks the tables. *)
Theorem C08_nested_class_refuted :
  exists b : built,
    build 300 ida cls_ds = GOk b /\
    map sy_name (g_syms (bt_grammar b)) =
    ["$"; "A"; "B"; "E"; "F"; "error"; "input"; "{default}"; "C"; "D"] /\
    demo dsem cls_ds [2; 4] = Fail_ 77 /\ demo dsem cls_ds [] = Panic_.
Proof. exact @nested_class_refuted. Qed.
Print Assumptions C08_nested_class_refuted.

(** ** C09. Emitted table entries fit their integer types *)

(** Lookaheads, rule left-hand sides and defaults fit. *)
Theorem C09_entries_fit :
  forall (ds : list decl) (b : built),
  expands ds b ->
  flat_decls ds ->
  (Z.of_nat (t_nsym (bt_tables b)) < 2 ^ 31)%Z ->
  (Z.of_nat (t_nstate (bt_tables b) + t_nrule (bt_tables b) + 5) < 2 ^ 32)%Z ->
  Forall (fun la : nat => fits_signed (code_bits (bt_tables b)) (Z.of_nat la))
    (t_lookahead (bt_tables b)) /\
  Forall (fun r : rt_rule => fits_signed (code_bits (bt_tables b)) (Z.of_nat (rr_lhs r)))
    (t_rules (bt_tables b)) /\
  Forall (fun d : nat => fits_unsigned (default_bits (bt_tables b)) (Z.of_nat d))
    (t_default (bt_tables b)).
Proof. exact @entries_fit. Qed.
Print Assumptions C09_entries_fit.

(** An offset fits exactly when it is not below the negative end of the type, which the generator does not look at. *)
Theorem C09_offsets_exact :
  forall (ds : list decl) (b : built),
  expands ds b ->
  flat_decls ds ->
  (t_shift_max (bt_tables b) < 2 ^ 31)%Z ->
  (t_reduce_max (bt_tables b) < 2 ^ 31)%Z ->
  (forall o : Z,
   In o (t_shift_ofst (bt_tables b)) ->
   fits_signed (shift_bits (bt_tables b)) o <-> (- 2 ^ (shift_bits (bt_tables b) - 1) <= o)%Z) /\
  (forall o : Z,
   In o (t_reduce_ofst (bt_tables b)) ->
   fits_signed (reduce_bits (bt_tables b)) o <-> (- 2 ^ (reduce_bits (bt_tables b) - 1) <= o)%Z).
Proof. exact @offsets_exact. Qed.
Print Assumptions C09_offsets_exact.

(** So all offsets fit for up to 129 symbols. *)
Theorem C09_offsets_fit_when_small :
  forall (ds : list decl) (b : built),
  expands ds b ->
  flat_decls ds ->
  t_nsym (bt_tables b) <= 129 ->
  (t_shift_max (bt_tables b) < 2 ^ 31)%Z ->
  (t_reduce_max (bt_tables b) < 2 ^ 31)%Z ->
  Forall (fits_signed (shift_bits (bt_tables b))) (t_shift_ofst (bt_tables b)) /\
  Forall (fits_signed (reduce_bits (bt_tables b))) (t_reduce_ofst (bt_tables b)).
Proof. exact @offsets_small. Qed.
Print Assumptions C09_offsets_fit_when_small.

(** And do not always fit. *)
Theorem C09_offset_refuted :
  exists (ds : list decl) (b : built),
    build 300 ida ds = GOk b /\
    (exists o : Z,
       In o (t_reduce_ofst (bt_tables b)) /\
       (o < - 2 ^ (minimum_signed_bits (t_reduce_max (bt_tables b)) - 1))%Z).
Proof. exact @offset_type_refuted. Qed.
Print Assumptions C09_offset_refuted.

(** ** C10. Shift-reduce conflicts are resolved as documented *)

(** A token that can be shifted and one rule that can be reduced: both must have a precedence (otherwise the macro fails), the higher one wins, a tie goes by associativity. *)
Theorem C10_shift_reduce :
  forall (ds : list decl) (b : built),
  expands ds b ->
  usable ds b ->
  forall s a r : nat,
  s < List.length (p_states (bt_auto b)) ->
  0 < a < g_nterm (bt_grammar b) ->
  can_shift b s a ->
  can_reduce b s r a ->
  (forall r' : nat, can_reduce b s r' a -> r' = r) ->
  exists (pt : nat * assoc) (pr : prec),
    assoc_of ds (tok_name b a) = Some pt /\
    r_prec (grule (bt_grammar b) r) = Some pr /\
    (shift_wins pt pr -> says_shift b s a) /\
    (reduce_wins pt pr -> wildcard_of ds = None -> says_reduce b s r a) /\
    (undecided pt pr ->
     wildcard_of ds = None -> fallback_of ds (tok_name b a) = None -> says_error b s a).
Proof. exact @shift_reduce. Qed.
Print Assumptions C10_shift_reduce.

(** ** C11. Reduce-reduce conflicts are resolved as documented *)

(** Two rules: both must have a precedence and the higher one wins; equal precedences are only possible if they are not %nonassoc. *)
Theorem C11_reduce_reduce :
  forall (ds : list decl) (b : built),
  expands ds b ->
  usable ds b ->
  forall s a r1 r2 : nat,
  s < List.length (p_states (bt_auto b)) ->
  0 < a < g_nterm (bt_grammar b) ->
  r1 < r2 ->
  can_reduce b s r1 a ->
  can_reduce b s r2 a ->
  ~ can_shift b s a ->
  (forall r' : nat, can_reduce b s r' a -> r' = r1 \/ r' = r2) ->
  exists p1 p2 : prec,
    r_prec (grule (bt_grammar b) r1) = Some p1 /\
    r_prec (grule (bt_grammar b) r2) = Some p2 /\
    (fst p1 = fst p2 -> snd p1 <> ANone) /\
    (wildcard_of ds = None ->
     (fst p2 < fst p1 -> says_reduce b s r1 a) /\ (fst p1 < fst p2 -> says_reduce b s r2 a)).
Proof. exact @reduce_reduce. Qed.
Print Assumptions C11_reduce_reduce.

(** Equal precedences should be a conflict; the macro silently keeps the later rule. *)
Theorem C11_equal_precedence_refuted :
  exists b : built,
    build 300 ida rr_ds = GOk b /\
    r_prec (grule (bt_grammar b) 2) = Some (1, ALeft) /\
    r_prec (grule (bt_grammar b) 3) = Some (1, ALeft) /\
    (exists s : nat,
       In {| a_la := 0; a_det := RDResolved 2 |} (s_actions (pstate (bt_acts b) s)) /\
       In {| a_la := 0; a_det := Reduce 3 |} (s_actions (pstate (bt_acts b) s))).
Proof. exact @reduce_reduce_refuted. Qed.
Print Assumptions C11_equal_precedence_refuted.

(** ** C12. %nonassoc operators do not chain *)

(** A %nonassoc token tied with a rule is an error, whatever else can be reduced at a lower or equal level, if there is no wildcard and the token has no fallback. *)
Theorem C12_nonassoc_error :
  forall (ds : list decl) (b : built),
  expands ds b ->
  usable ds b ->
  forall s a : nat,
  s < List.length (p_states (bt_auto b)) ->
  0 < a < g_nterm (bt_grammar b) ->
  tie ds b s a ->
  (forall r : nat, can_reduce b s r a -> yields_to ds b a (ToReduce r) ToShift) ->
  wildcard_of ds = None -> fallback_of ds (tok_name b a) = None -> says_error b s a.
Proof. exact @nonassoc_error. Qed.
Print Assumptions C12_nonassoc_error.

(** Not an error if the state can also shift the wildcard. *)
Theorem C12_nonassoc_refuted :
  exists (b : built) (s : nat),
    build 300 ida na_ds = GOk b /\
    In {| a_la := 1; a_det := Error |} (s_actions (pstate (bt_acts b) s)) /\
    In {| a_la := 1; a_det := Reduce 1 |} (s_actions (pstate (bt_acts b) s)) /\
    find_shift_action (bt_tables b) (state_num (bt_grammar b) (bt_comp b) s) 1 =
    LAct (t_nstate (bt_tables b) + 1) /\
    demo dsem na_ds [3; 1; 3; 1; 3] = Accept_ VUnit [4; 4; 2; 4; 2; 1].
Proof. exact @nonassoc_refuted. Qed.
Print Assumptions C12_nonassoc_refuted.

(** Nor, in some states, if the token has a fallback. *)
Theorem C12_fallback_refuted :
  exists (b : built) (s : nat),
    build 300 ida nf_ds = GOk b /\
    In {| a_la := 1; a_det := Error |} (s_actions (pstate (bt_acts b) s)) /\
    In {| a_la := 1; a_det := Reduce 1 |} (s_actions (pstate (bt_acts b) s)) /\
    find_shift_action (bt_tables b) (state_num (bt_grammar b) (bt_comp b) s) 1 =
    LAct (t_nstate (bt_tables b) + 1) /\ demo dsem nf_ds [4; 1; 4; 1; 3] = Accept_ VUnit [4; 4; 2; 1].
Proof. exact @nonassoc_fallback_refuted. Qed.
Print Assumptions C12_fallback_refuted.

(** ** C13. Nullable and FIRST sets are exact *)

(** The two fixpoint loops compute exactly the inductively defined sets. *)
Theorem C13_firsts_exact :
  forall (ds : list decl) (b : built),
  expands ds b ->
  (forall X : nat, lam_of (fi_lam (bt_firsts b)) X = true <-> nullable (bt_grammar b) X) /\
  (forall X a : nat,
   kind_at (bt_grammar b) X = Some KNonTerm ->
   In a (First.first_of (fi_first (bt_firsts b)) X) <-> first (bt_grammar b) a X).
Proof. exact @firsts_exact. Qed.
Print Assumptions C13_firsts_exact.

(** ** C14. LALR(1) lookaheads are exact *)

(** A lookahead is recorded for an item of a state exactly when some viable prefix reaching the state has the LR(1) item valid. *)
Theorem C14_lookaheads_exact :
  forall (ds : list decl) (b : built),
  expands ds b ->
  forall s r d a : nat,
  s < List.length (p_states (bt_auto b)) ->
  look (bt_auto b) s (r, d) a <->
  (exists gamma : list nat, state_of b gamma s /\ lr1 (bt_grammar b) gamma r d a).
Proof. exact @lookaheads_exact. Qed.
Print Assumptions C14_lookaheads_exact.

(** No precedences: the reduce actions are exactly those. *)
Theorem C14_reductions_offered :
  forall (ds : list decl) (b : built),
  expands ds b ->
  forall s r a : nat,
  s < List.length (p_states (bt_auto b)) ->
  a < g_nterm (bt_grammar b) ->
  plain ds ->
  In {| a_la := a; a_det := Reduce r |} (s_actions (pstate (bt_acts b) s)) <-> can_reduce b s r a.
Proof. exact @reductions_offered. Qed.
Print Assumptions C14_reductions_offered.

(** ** C15. No conflict is left silently undecided *)

(** At most one live action for a state and lookahead. *)
Theorem C15_one_live_action :
  forall (ds : list decl) (b : built),
  expands ds b ->
  forall (s a : nat) (d d' : detail),
  s < List.length (p_states (bt_auto b)) ->
  In {| a_la := a; a_det := d |} (s_actions (pstate (bt_acts b) s)) ->
  In {| a_la := a; a_det := d' |} (s_actions (pstate (bt_acts b) s)) ->
  ActFacts.live d -> ActFacts.live d' -> d = d'.
Proof. exact @one_live. Qed.
Print Assumptions C15_one_live_action.

(** And there is one whenever something can be done, the one that beats the others in the documented order. *)
Theorem C15_choice_made :
  forall (ds : list decl) (g : grammar) (opts : list (nat * nat)),
  declared ds g opts -> wf_grammar g -> chooses ds -> ChooseFacts.chooser g.
Proof. exact @choice_made. Qed.
Print Assumptions C15_choice_made.

(** That choice is unique but for mutual ties. *)
Theorem C15_choice_unique :
  forall (ds : list decl) (b : built) (s a : nat) (w w' : choice),
  picks ds b s a w -> picks ds b s a w' -> w = w' \/ yields_to ds b a w w' /\ yields_to ds b a w' w.
Proof. exact @picks_one. Qed.
Print Assumptions C15_choice_unique.

(** ** C16. %fallback can never loop *)

(** No chain of fallbacks comes back. *)
Theorem C16_fallback_acyclic :
  forall (ds : list decl) (b : built),
  expands ds b -> no_self_fallback ds -> forall a c : ident, fallback_of ds a = Some c -> ~ falls ds c a.
Proof. exact @fallback_acyclic. Qed.
Print Assumptions C16_fallback_acyclic.

(** Every chain ends, within the number of fallback targets. *)
Theorem C16_fallback_ends :
  forall (ds : list decl) (b : built),
  expands ds b ->
  no_self_fallback ds ->
  forall a : ident, Claims3.follow ds (S (List.length (targets ds))) a = None.
Proof. exact @fallback_ends. Qed.
Print Assumptions C16_fallback_ends.

(** A token may be its own fallback, so [no_self_fallback] is needed. *)
Theorem C16_self_fallback_refuted :
  exists (f : fe) (a : nat) (s : symbol),
    new_from_decls 300 (self_fb ++ pan_ds) = GOk f /\
    nth_error (f_syms f) a = Some s /\ sy_fb s = Some a.
Proof. exact @self_fallback_refuted. Qed.
Print Assumptions C16_self_fallback_refuted.

(** ** C17. A fallback does not change a token that is valid in the first place *)

(** A token the state can do something with gets the documented choice, whatever its fallback. *)
Theorem C17_own_action :
  forall (ds : list decl) (b : built),
  expands ds b ->
  usable ds b ->
  forall (s a : nat) (c : choice),
  s < List.length (p_states (bt_auto b)) ->
  0 < a < g_nterm (bt_grammar b) ->
  can b s a c ->
  wildcard_of ds = None ->
  exists w : choice,
    picks ds b s a w /\
    (~ tie ds b s a -> does b s a w) /\
    (does b s a w \/ tie ds b s a /\ (fallback_of ds (tok_name b a) = None -> says_error b s a)).
Proof. exact @own_action. Qed.
Print Assumptions C17_own_action.

(** A token the state can do nothing with is looked up as its fallback. *)
Theorem C17_fallback_used :
  forall (ds : list decl) (b : built),
  expands ds b ->
  usable ds b ->
  forall (s a : nat) (n : ident),
  s < List.length (p_states (bt_auto b)) ->
  0 < a < g_nterm (bt_grammar b) ->
  (forall c : choice, ~ can b s a c) ->
  fallback_of ds (tok_name b a) = Some n ->
  exists f : nat,
    0 < f < List.length (g_syms (bt_grammar b)) /\
    gname (bt_grammar b) f = n /\
    find_shift_action (bt_tables b) (state_num (bt_grammar b) (bt_comp b) s) a =
    find_shift_action (bt_tables b) (state_num (bt_grammar b) (bt_comp b) s) f.
Proof. exact @fallback_used. Qed.
Print Assumptions C17_fallback_used.

(** ** C18. %wildcard matches only what cannot be parsed otherwise *)

(** A token with its own choice keeps it if that is a shift or if the state shifts the wildcard. *)
Theorem C18_own_over_wildcard :
  forall (ds : list decl) (b : built),
  expands ds b ->
  usable ds b ->
  forall (s a : nat) (w : choice),
  s < List.length (p_states (bt_auto b)) ->
  0 < a < g_nterm (bt_grammar b) ->
  picks ds b s a w ->
  (forall w' : choice, picks ds b s a w' -> w' = w) ->
  ~ tie ds b s a ->
  w = ToShift \/
  (exists k : nat,
     0 < k < g_nterm (bt_grammar b) /\
     wildcard_of ds = Some (tok_name b k) /\
     fallback_of ds (tok_name b k) = None /\
     can_shift b s k /\ (forall w' : choice, picks ds b s k w' -> w' = ToShift)) -> 
  does b s a w.
Proof. exact @own_over_wildcard. Qed.
Print Assumptions C18_own_over_wildcard.

(** Not so for a reduction when the state reduces on the wildcard. *)
Theorem C18_wildcard_refuted :
  exists (b : built) (s : nat),
    build 300 ida wc_ds = GOk b /\
    In {| a_la := 2; a_det := Reduce 4 |} (s_actions (pstate (bt_acts b) s)) /\
    In {| a_la := 1; a_det := Reduce 3 |} (s_actions (pstate (bt_acts b) s)) /\
    find_shift_action (bt_tables b) (state_num (bt_grammar b) (bt_comp b) s) 2 =
    LAct (t_nstate (bt_tables b) + 3) /\ demo dsem wc_ds [4; 2] = Accept_ VUnit [4; 1].
Proof. exact @wildcard_refuted. Qed.
Print Assumptions C18_wildcard_refuted.

(** ** C19. The stack limit is respected and changes nothing else *)

(** The stack never holds more entries than declared. *)
Theorem C19_limit_respected :
  forall (ds : list decl) (b : built),
  expands ds b ->
  forall (V X E : Type) (sm : sem V X E) (n : nat) (x : X) (ks : list (token V)),
  0 < limit_of ds ->
  rpost (fun p : parser (minor V) X V => List.length (ps_stack p) <= limit_of ds)
    (fun (_ : E) (p : parser (minor V) X V) => List.length (ps_stack p) <= limit_of ds)
    (parse_all n (bt_tables b) (user_hooks (bt_tables b) sm)
       (new_parser (user_hooks (bt_tables b) sm) x) (map (token_value (bt_tables b) sm) ks)).
Proof. exact @limit_respected. Qed.
Print Assumptions C19_limit_respected.

(** A run is the run without limit, or it stopped at a full stack with the overflow handler's error. *)
Theorem C19_limit_only :
  forall (ds : list decl) (b : built),
  expands ds b ->
  forall (V X E : Type) (sm : sem V X E) (n : nat) (x : X) (ks : list (token V)),
  api_run n (bt_tables b) sm x ks = unlimited_run b sm n x ks /\
  ~ overflow_logged (api_run n (bt_tables b) sm x ks) \/
  stopped_full ds sm (api_run n (bt_tables b) sm x ks).
Proof. exact @limit_only. Qed.
Print Assumptions C19_limit_only.

(** ** C20. %syntax_error is silent until three tokens have been shifted *)

(** For grammars that do not use the error symbol. *)
Theorem C20_reports_spaced :
  forall (ds : list decl) (b : built) (V X E : Type) (sm : sem V X E) (n : nat) 
    (x : X) (ks : list (token V)),
  expands ds b ->
  ~ mentions ds "error" ->
  rpost (fun p : parser (minor V) X V => spaced (ps_log p))
    (fun (_ : E) (p : parser (minor V) X V) => spaced (ps_log p))
    (parse_all n (bt_tables b) (user_hooks (bt_tables b) sm)
       (new_parser (user_hooks (bt_tables b) sm) x) (map (token_value (bt_tables b) sm) ks)).
Proof. exact @reports_spaced_decl. Qed.
Print Assumptions C20_reports_spaced.

(** And exactly then: a wrong token is reported if and only if it is the first or three tokens have been shifted since the last wrong one. *)
Theorem C20_reports_exact :
  forall (ds : list decl) (b : built),
  expands ds b ->
  ~ mentions ds "error" ->
  forall (V X E : Type) (sm : sem V X E) (n : nat) (x : X) (ks : list (token V)),
  rpost (fun p : parser (minor V) X V => all_reported_right (ps_log p))
    (fun (_ : E) (p : parser (minor V) X V) => all_reported_right (ps_log p))
    (parse_all n (bt_tables b) (user_hooks (bt_tables b) sm)
       (new_parser (user_hooks (bt_tables b) sm) x) (map (token_value (bt_tables b) sm) ks)).
Proof. exact @reports_exact. Qed.
Print Assumptions C20_reports_exact.

(** With the error symbol the handler can run for one token after the other. *)
Theorem C20_error_symbol_refuted :
  exists
    (ds : list decl) (b : built) (ks : list (token val)) (p : parser (minor val) (list Syntax.code) val) 
  (v : val * list Syntax.code),
    expands ds b /\
    usable ds b /\
    types_ok ds /\
    tokens_wf b ks /\
    api_run 300 (bt_tables b) esem [] ks = ROk v p /\
    (exists (l1 : list event) (a : nat) (l2 : list event) (a' : nat) (l3 : list event),
       ps_log p = l1 ++ EvSyntaxError a :: l2 ++ EvSyntaxError a' :: l3 /\
       Forall (fun e : event => forall c : nat, e <> EvShift c) l2).
Proof. exact @no_silence_refuted. Qed.
Print Assumptions C20_error_symbol_refuted.

(** ** C21. Error recovery resumes at the nearest state accepting error *)

(** Without the error symbol the token is dropped and the stack is left as it is; no other handler runs. *)
Theorem C21_skipped :
  forall (ds : list decl) (b : built),
  expands ds b ->
  ~ mentions ds "error" ->
  forall (V X E : Type) (sm : sem V X E) (n : nat) (p : parser (minor V) X V) 
    (k : token V) (top : Runtime.entry (minor V)) (rest : list (Runtime.entry (minor V))),
  ps_status p = Normal ->
  ps_stack p = top :: rest ->
  token_wf (bt_tables b) k ->
  find_shift_action (bt_tables b) (e_state top) (fst k) =
  LAct (t_nstate (bt_tables b) + t_nrule (bt_tables b)) ->
  let expected :=
    map (fun i : nat => (i, token_build (bt_tables b) i (0, v_unit sm)))
      (expected_tokens (bt_tables b) (e_state top)) in
  let called :=
    log (set_extra p (fst (u_syntax sm (Some k) expected (ps_extra p)))) (EvSyntaxError (fst k)) in
  api_parse (S n) (bt_tables b) sm p k =
  (if ps_count p =? 0
   then
    match snd (u_syntax sm (Some k) expected (ps_extra p)) with
    | inl _ => ROk tt (log (set_count called 3) (EvDrop (fst k)))
    | inr e => RErr e (set_status called Failed)
    end
   else ROk tt (log (set_count p 3) (EvDrop (fst k)))).
Proof. exact @skipped. Qed.
Print Assumptions C21_skipped.

(** On an error the stack is cut back to the topmost entry that can take the error symbol, and the call ends as described. *)
Theorem C21_recovery :
  forall (ds : list decl) (b : built),
  expands ds b ->
  usable ds b ->
  forall (V X E : Type) (sm : sem V X E) (n : nat) (p : parser (minor V) X V) 
    (k : token V) (top : Runtime.entry (minor V)) (stk : list (Runtime.entry (minor V))),
  types_ok ds ->
  midway b sm p ->
  mentions ds "error" ->
  token_wf (bt_tables b) k ->
  ps_stack p = top :: stk ->
  find_shift_action (bt_tables b) (e_state top) (fst k) =
  LAct (t_nstate (bt_tables b) + t_nrule (bt_tables b)) ->
  exists above rest : list (Runtime.entry (minor V)),
    ps_stack p = above ++ rest /\
    Forall (fun e : Runtime.entry (minor V) => ~ catching b e) above /\
    (let p0 :=
       {|
         ps_count := ps_count p;
         ps_stack := rest;
         ps_extra := ps_extra p;
         ps_status := Normal;
         ps_log := RunMore.pops (List.length above) (ps_log p)
       |} in
     match rest with
     | [] =>
         exists (x : X) (e : E),
           u_fail sm (ps_extra p) = (x, e) /\
           api_parse (S n) (bt_tables b) sm p k =
           RErr e (set_status (log (set_extra p0 x) EvParseFail) Failed)
     | e :: _ =>
         catching b e /\
         (e_major e = g_error (bt_grammar b) ->
          api_parse (S n) (bt_tables b) sm p k = ROk tt (log (set_count p0 3) (EvDrop (fst k)))) /\
         (e_major e <> g_error (bt_grammar b) ->
          exists s q : nat,
            s < List.length (p_states (bt_auto b)) /\
            e_state e = state_num (bt_grammar b) (bt_comp b) s /\
            edge (bt_grammar b) (bt_auto b) s (g_error (bt_grammar b)) q /\
            (let
             '(x, ve) :=
              h_syntax (user_hooks (bt_tables b) sm) (fst k) (snd (token_value (bt_tables b) sm k))
                (expected_tokens (bt_tables b) (e_state top)) (ps_extra p) in
              let p1 := log (set_extra p0 x) (EvSyntaxError (fst k)) in
              match ve with
              | inl v =>
                  (t_limit (bt_tables b) = 0 \/ List.length rest < t_limit (bt_tables b) ->
                   api_parse (S n) (bt_tables b) sm p k =
                   ROk tt
                     (log
                        (set_count
                           (log
                              (set_stack p1
                                 ({|
                                    e_state := state_num (bt_grammar b) (bt_comp b) q;
                                    e_major := g_error (bt_grammar b);
                                    e_minor := v
                                  |} :: rest)) EvError) 3) (EvDrop (fst k)))) /\
                  (t_limit (bt_tables b) <> 0 ->
                   t_limit (bt_tables b) <= List.length rest ->
                   exists (x' : X) (e' : E),
                     h_overflow (user_hooks (bt_tables b) sm) (g_error (bt_grammar b)) v x = (x', e') /\
                     api_parse (S n) (bt_tables b) sm p k =
                     RErr e'
                       (set_status (log (set_extra p1 x') (EvOverflow (g_error (bt_grammar b)))) Failed))
              | inr er => api_parse (S n) (bt_tables b) sm p k = RErr er (set_status p1 Failed)
              end))
     end).
Proof. exact @recovery. Qed.
Print Assumptions C21_recovery.

(** ** C22. A failed parser stays failed *)

(** After Err every further call panics, without running user code. *)
Theorem C22_failed_stays :
  forall (V X E : Type) (t : tables) (sm : sem V X E) (n : nat) (p : parser (minor V) X V) 
    (k : token V) (e : E) (p' : parser (minor V) X V),
  api_parse n t sm p k = RErr e p' ->
  ps_status p' = Failed /\
  (forall (n' : nat) (k' : token V), api_parse n' t sm p' k' = RPanic) /\
  (forall n' : nat, end_of_input n' t (user_hooks t sm) p' = RPanic).
Proof. exact @failed_stays. Qed.
Print Assumptions C22_failed_stays.

(** Until then no call does, and the parser stays usable. *)
Theorem C22_until_then_normal :
  forall (ds : list decl) (b : built),
  expands ds b ->
  usable ds b ->
  forall (V X E : Type) (sm : sem V X E) (n : nat) (p : parser (minor V) X V) (k : token V),
  types_ok ds ->
  midway b sm p ->
  token_wf (bt_tables b) k ->
  ps_status p = Normal /\
  match api_parse n (bt_tables b) sm p k with
  | ROk _ p' => midway b sm p'
  | RErr _ p' => ps_status p' = Failed
  | RPanic => False
  | RFuel => True
  end.
Proof. exact @midway_calls. Qed.
Print Assumptions C22_until_then_normal.

(** Nor does end_of_input. *)
Theorem C22_end_until_then :
  forall (ds : list decl) (b : built),
  expands ds b ->
  usable ds b ->
  forall (V X E : Type) (sm : sem V X E) (n : nat) (p : parser (minor V) X V),
  types_ok ds -> midway b sm p -> end_of_input n (bt_tables b) (user_hooks (bt_tables b) sm) p <> RPanic.
Proof. exact @midway_end. Qed.
Print Assumptions C22_end_until_then.

(** ** C23. end_of_input never silently discards input *)

(** Ok only by accepting on the empty stack, Err only from a handler or block that ran; %syntax_error is never run. *)
Theorem C23_end_exact :
  forall (ds : list decl) (b : built),
  expands ds b ->
  usable ds b ->
  forall (V X E : Type) (sm : sem V X E) (n n' : nat) (x : X) (ks : list (token V))
    (pp : parser (minor V) X V),
  types_ok ds ->
  tokens_wf b ks ->
  parse_all n (bt_tables b) (user_hooks (bt_tables b) sm) (new_parser (user_hooks (bt_tables b) sm) x)
    (map (token_value (bt_tables b) sm) ks) = ROk tt pp ->
  ps_status pp = Normal /\
  match end_of_input n' (bt_tables b) (user_hooks (bt_tables b) sm) pp with
  | ROk (r, x') pp' =>
      accepting ds pp' /\
      ps_status pp' = Accepted r /\
      x' = ps_extra pp' /\ (exists l : list event, ps_log pp' = l ++ ps_log pp /\ Forall Claims.quiet l)
  | RErr e pp' =>
      end_blame (user_hooks (bt_tables b) sm) e pp' /\
      (exists l : list event, ps_log pp' = l ++ ps_log pp /\ l <> [] /\ Forall Claims.quiet l)
  | RPanic => False
  | RFuel => True
  end.
Proof. exact @end_exact. Qed.
Print Assumptions C23_end_exact.

(** ** C24. The expected-token list *)

(** No duplicates, only tokens, and ready-made tokens for those without data. *)
Theorem C24_shape :
  forall (ds : list decl) (b : built),
  expands ds b ->
  usable ds b ->
  forall s : nat,
  let l := expected_tokens (bt_tables b) s in
  NoDup l /\
  (forall c : nat, In c l -> 0 < c < t_nterm (bt_tables b)) /\
  (forall (V X E : Type) (sm : sem V X E) (c : nat),
   In c l ->
   token_build (bt_tables b) c (0, v_unit sm) =
   (if opt_is_some (name_type ds (tok_name b c)) then None else Some (c, None))).
Proof. exact @expected_shape. Qed.
Print Assumptions C24_shape.

(** A token that parse() shifts is in the list of the state it was called in. *)
Theorem C24_shifted_was_expected :
  forall (V X E : Type) (t : tables) (sm : sem V X E) (n : nat) (p : parser (minor V) X V) 
    (k : token V) (p' : parser (minor V) X V) (top : Runtime.entry (minor V))
    (rest : list (Runtime.entry (minor V))) (l : list event),
  token_wf t k ->
  ps_stack p = top :: rest ->
  api_parse n t sm p k = ROk tt p' ->
  ps_log p' = EvShift (fst k) :: l -> In (fst k) (expected_tokens t (e_state top)).
Proof. exact @shifted_expected. Qed.
Print Assumptions C24_shifted_was_expected.

(** No precedences: when a state rejects a token, the list is exactly the tokens the state can do something with, directly or through fallbacks. *)
Theorem C24_exact :
  forall (ds : list decl) (b : built),
  expands ds b ->
  usable ds b ->
  forall s a c : nat,
  plain ds ->
  s < List.length (p_states (bt_auto b)) ->
  0 < a < g_nterm (bt_grammar b) ->
  0 < c < g_nterm (bt_grammar b) ->
  says_error b s a ->
  In c (expected_tokens (bt_tables b) (state_num (bt_grammar b) (bt_comp b) s)) <->
  (exists c' : nat,
     0 < c' < g_nterm (bt_grammar b) /\
     falls ds (tok_name b c) (tok_name b c') /\ (exists w : choice, can b s c' w)).
Proof. exact @expected_exact. Qed.
Print Assumptions C24_exact.

(** The state that rejects may have been reached by default reductions: a token that was possible before them can be missing. *)
Theorem C24_after_reduction_refuted :
  exists b : built,
    build 300 ida exp_ds = GOk b /\
    (exists (v : val * list nat) (p : parser (minor val) (list nat) val),
       api_run 300 (bt_tables b) xsem [] [(1, None); (5, None); (6, None); (2, None)] = ROk v p) /\
    (exists p : parser (minor val) (list nat) val,
       api_run 300 (bt_tables b) xsem [] [(1, None); (5, None); (4, None)] = RErr 77 p /\
       ~ In 6 (ps_extra p)).
Proof. exact @expected_refuted. Qed.
Print Assumptions C24_after_reduction_refuted.

(** ** C25. Error handlers see the exact offending token *)

(** Changing the handlers on all other tokens changes nothing: they are only called with the token passed to parse(). *)
Theorem C25_handlers_see_the_token :
  forall (ds : list decl) (b : built),
  expands ds b ->
  usable ds b ->
  forall (V X E : Type) (s1 s2 : sem V X E) (k : token V) (n : nat) (p : parser (minor V) X V),
  token_wf (bt_tables b) k ->
  agree_on k s1 s2 -> api_parse n (bt_tables b) s1 p k = api_parse n (bt_tables b) s2 p k.
Proof. exact @handler_token. Qed.
Print Assumptions C25_handlers_see_the_token.

(** A call that ends in %syntax_error or %stack_overflow ended with the result of that handler on the very token; the overflow handler gets no token if a non-terminal did not fit. *)
Theorem C25_handlers_called :
  forall (ds : list decl) (b : built),
  expands ds b ->
  usable ds b ->
  forall (V X E : Type) (sm : sem V X E) (n : nat) (p : parser (minor V) X V) 
    (k : token V) (e : E) (p' : parser (minor V) X V) (l : list event),
  token_wf (bt_tables b) k ->
  api_parse n (bt_tables b) sm p k = RErr e p' ->
  (forall a : nat,
   ps_log p' = EvSyntaxError a :: l ->
   a = fst k /\
   (exists (exp : list (nat * option (token V))) (x : X),
      u_syntax sm (Some k) exp x = (ps_extra p', inr e))) /\
  (forall a : nat,
   ps_log p' = EvOverflow a :: l ->
   a = fst k /\ (exists x : X, u_overflow sm (Some k) x = (ps_extra p', e)) \/
   t_nterm (bt_tables b) <= a /\ (exists x : X, u_overflow sm None x = (ps_extra p', e))).
Proof. exact @handlers_called. Qed.
Print Assumptions C25_handlers_called.

(** That case exists. *)
Theorem C25_overflow_token_refuted :
  exists (b : built) (p q : parser (minor val) (list Syntax.code) val),
    build 300 ida ov_ds = GOk b /\
    api_parse 300 (bt_tables b) ov_sem (new_parser (user_hooks (bt_tables b) ov_sem) []) (1, None) =
    ROk tt p /\ api_parse 300 (bt_tables b) ov_sem p (2, None) = RErr 0 q.
Proof. exact @overflow_token_refuted. Qed.
Print Assumptions C25_overflow_token_refuted.

(** ** C26. X? means X or nothing *)

(** The rules are the declared ones and two for each optional symbol, which derives exactly nothing or what the symbol derives. *)
Theorem C26_optional_exact :
  forall (ds : list decl) (b : built),
  expands ds b ->
  exists (opts : list (nat * nat)) (rs : list rule),
    g_rules (bt_grammar b) = rs ++ flat_map (opt_made (bt_grammar b)) opts /\
    Forall2 (rule_made (bt_grammar b) opts) (rules_in ds) rs /\
    NoDup (map fst opts) /\
    NoDup (map snd opts) /\
    (forall Y O : nat,
     In (Y, O) opts ->
     (exists (d : drule) (n : ident) (al : option string),
        In d (rules_in ds) /\ In ([n], true, al) (d_rhs d) /\ at_name (bt_grammar b) Y n) /\
     (forall (M : Type) (tr : tree M),
      derives (bt_grammar b) (tok_match (bt_grammar b)) O tr <->
      (exists r : nat,
         tr = TNode r [] /\
         nth_error (g_rules (bt_grammar b)) r =
         Some {| r_lhs := O; r_rhs := []; r_code := COptNone; r_precsym := None; r_prec := None |}) \/
      (exists (r : nat) (u : tree M),
         tr = TNode r [u] /\
         nth_error (g_rules (bt_grammar b)) r =
         Some
           {|
             r_lhs := O;
             r_rhs := [(Y, true)];
             r_code := COptSome;
             r_precsym := None;
             r_prec := rhs_sym_prec (bt_grammar b) Y
           |} /\ derives (bt_grammar b) (tok_match (bt_grammar b)) Y u))).
Proof. exact @optional_exact. Qed.
Print Assumptions C26_optional_exact.

(** The question mark after a compound is ignored. *)
Theorem C26_optional_compound_refuted :
  demo dsem opt_ds [] = Fail_ 88 /\ demo dsem opt_ds [2] = Accept_ VUnit [1].
Proof. exact @optional_compound_refuted. Qed.
Print Assumptions C26_optional_compound_refuted.

(** ** C27. Static checks hold for whatever is accepted *)

(** The start symbol is on no right-hand side. *)
Theorem C27_start_not_used :
  forall (ds : list decl) (b : built),
  expands ds b ->
  exists s : ident,
    start_of ds = Some s /\
    (forall (d : drule) (e : rhs_elem), In d (rules_in ds) -> In e (d_rhs d) -> ~ In s (names_of e)).
Proof. exact @start_not_used. Qed.
Print Assumptions C27_start_not_used.

(** Every non-terminal used has a rule. *)
Theorem C27_symbols_have_rules :
  forall (ds : list decl) (b : built),
  expands ds b ->
  forall (d : drule) (e : rhs_elem) (n : ident),
  In d (rules_in ds) ->
  In e (d_rhs d) ->
  In n (names_of e) ->
  lower n -> n = "error" \/ (exists d' : drule, In d' (rules_in ds) /\ d_lhs d' = n).
Proof. exact @symbols_have_rules. Qed.
Print Assumptions C27_symbols_have_rules.

(** Every rule is reduced somewhere. *)
Theorem C27_rules_reduced :
  forall (ds : list decl) (b : built),
  expands ds b ->
  forall (k : nat) (d : drule),
  nth_error (rules_in ds) k = Some d ->
  exists s la : nat,
    s < List.length (p_states (bt_auto b)) /\
    can_reduce b s k la /\ In {| a_la := la; a_det := Reduce k |} (acts (bt_acts b) s).
Proof. exact @rules_reduced. Qed.
Print Assumptions C27_rules_reduced.

(** Nothing is declared twice. *)
Theorem C27_nothing_twice :
  forall (ds : list decl) (b : built),
  expands ds b ->
  (forall (k i j : nat) (d e : decl),
   nth_error ds i = Some d ->
   nth_error ds j = Some e -> single_kind d = Some k -> single_kind e = Some k -> i = j) /\
  (forall (l1 l2 : list decl) (na : nat) (n : ident) (o : option ty),
   ds = l1 ++ DType na n o :: l2 -> type_of l1 n = None) /\
  (forall (l1 l2 : list decl) (a : assoc) (ids : list ident),
   ds = l1 ++ DAssoc a ids :: l2 -> NoDup ids /\ (forall n : ident, In n ids -> assoc_of l1 n = None)) /\
  (forall (l1 l2 : list decl) (fb : ident) (ids : list ident),
   ds = l1 ++ DFallback fb ids :: l2 ->
   NoDup ids /\ (forall n : ident, In n ids -> fallback_of l1 n = None)).
Proof. exact @nothing_twice. Qed.
Print Assumptions C27_nothing_twice.

(** But %stack_size can be. *)
Theorem C27_stack_size_twice_refuted :
  exists f : fe,
    new_from_decls 300 (DStackSize 10 None :: DStackSize 20 None :: pan_ds) = GOk f /\
    f_stack_limit f = 20.
Proof. exact @stack_size_twice_refuted. Qed.
Print Assumptions C27_stack_size_twice_refuted.

(** ** C28. Symbol numbering *)

(** One number per name; end of input, tokens, non-terminals, default marker, compounds, in this order. *)
Theorem C28_symbols_numbered :
  forall (ds : list decl) (b : built),
  expands ds b ->
  (forall (i j : nat) (n : string),
   at_name (bt_grammar b) i n -> at_name (bt_grammar b) j n -> n <> "" -> i = j) /\
  at_name (bt_grammar b) 0 "$" /\
  (forall n : string,
   upper n ->
   class_of ds n = None ->
   (exists i : nat, 0 < i < g_nterm (bt_grammar b) /\ at_name (bt_grammar b) i n) <-> mentions ds n) /\
  (forall n : string,
   lower n ->
   (exists i : nat, g_nterm (bt_grammar b) <= i < g_dflt (bt_grammar b) /\ at_name (bt_grammar b) i n) <->
   n = "error" \/ mentions ds n) /\
  at_name (bt_grammar b) (g_dflt (bt_grammar b)) "{default}" /\
  (forall i : nat,
   g_dflt (bt_grammar b) < i < List.length (g_syms (bt_grammar b)) <->
   (exists ms : list nat, kind_at (bt_grammar b) i = Some (KMulti ms))).
Proof. exact @symbols_numbered. Qed.
Print Assumptions C28_symbols_numbered.

(** The variants of the token type are exactly the tokens mentioned. *)
Theorem C28_tokens_numbered :
  forall (ds : list decl) (b : built),
  expands ds b ->
  usable ds b ->
  List.length (t_names (bt_tables b)) = t_nterm (bt_tables b) /\
  tok_name b 0 = "$" /\
  (forall i j : nat,
   i < t_nterm (bt_tables b) -> j < t_nterm (bt_tables b) -> tok_name b i = tok_name b j -> i = j) /\
  (forall n : ident,
   (exists i : nat, 0 < i < t_nterm (bt_tables b) /\ tok_name b i = n) <->
   upper n /\ class_of ds n = None /\ mentions ds n).
Proof. exact @tokens_numbered. Qed.
Print Assumptions C28_tokens_numbered.

(** ** C29. A failing rule block aborts the parse with its own error *)

(** Recording every error a block or handler returns: an Err result is the one and only one recorded, and an Ok result means none was. *)
Theorem C29_errors_kept :
  forall (V X E : Type) (t : tables) (sm : sem V X E) (n : nat) (x : X) (ks : list (token V)),
  match api_run n t (watch sm) (x, []) ks with
  | ROk (v', (x', l)) p' =>
      match api_run n t sm x ks with
      | ROk (v, x1) p => v' = v /\ x' = x1 /\ l = [] /\ unwatch_p p' = p
      | _ => False
      end
  | RErr e' p' =>
      match api_run n t sm x ks with
      | RErr e p => e' = e /\ snd (ps_extra p') = [e] /\ unwatch_p p' = p
      | _ => False
      end
  | RPanic => match api_run n t sm x ks with
              | RPanic => True
              | _ => False
              end
  | RFuel => match api_run n t sm x ks with
             | RFuel => True
             | _ => False
             end
  end.
Proof. exact @errors_kept. Qed.
Print Assumptions C29_errors_kept.

(** ** C30. Macro expansion terminates *)

(** If no token is declared to fall back to itself, the expansion ends: from some number of steps on it has the same result, which is not 'still running'. *)
Theorem C30_expansion_ends :
  forall (ds : list decl) (ord : list (nat * nat) -> list (nat * nat)),
  no_self_fallback ds -> hash_order ord -> ExpandFacts.ends (fun n : nat => build n ord ds).
Proof. exact @expansion_ends. Qed.
Print Assumptions C30_expansion_ends.

(** Not with a token falling back to itself. *)
Theorem C30_self_fallback_loops_refuted :
  exists ds : list decl,
    forall (fuel : nat) (ord : list (nat * nat) -> list (nat * nat)), build fuel ord ds = GFuel.
Proof. exact @expansion_loops_refuted. Qed.
Print Assumptions C30_self_fallback_loops_refuted.

(** ** C31. The order of the hash map is not observable *)

(** Whether the macro accepts a grammar does not depend on the order. *)
Theorem C31_accepted_any_order :
  forall (ds : list decl) (b : built) (ord : list (nat * nat) -> list (nat * nat)),
  expands ds b ->
  no_self_fallback ds ->
  elems_named ds ->
  classes_begin ds ->
  hash_order ord -> exists (n : nat) (b' : built), forall n' : nat, n <= n' -> build n' ord ds = GOk b'.
Proof. exact @accepted_any_order. Qed.
Print Assumptions C31_accepted_any_order.

(** Two expansions with different orders run alike on every input: same result, same blocks in the same order. *)
Theorem C31_order_same_run :
  forall (ds : list decl) (b1 b2 : built),
  expands ds b1 ->
  expands ds b2 ->
  usable ds b1 ->
  usable ds b2 ->
  forall (V X E : Type) (sm : sem V X E) (n : nat) (x : X) (ks : list (token V)),
  tokens_wf b1 ks ->
  same_outcome (bt_tables b1) (bt_tables b2)
    (parse_all n (bt_tables b1) (user_hooks (bt_tables b1) sm)
       (new_parser (user_hooks (bt_tables b1) sm) x) (map (token_value (bt_tables b1) sm) ks))
    (parse_all n (bt_tables b2) (user_hooks (bt_tables b2) sm)
       (new_parser (user_hooks (bt_tables b2) sm) x) (map (token_value (bt_tables b2) sm) ks)) /\
  same_outcome (bt_tables b1) (bt_tables b2) (api_run n (bt_tables b1) sm x ks)
    (api_run n (bt_tables b2) sm x ks).
Proof. exact @order_same_run. Qed.
Print Assumptions C31_order_same_run.

(** The same for inputs given by name: what is read from the two parsers has the same answers. *)
Theorem C31_order_unseen :
  forall (ds : list decl) (b1 b2 : built) (V X E : Type) (sm : sem V X E),
  expands ds b1 ->
  usable ds b1 ->
  expands ds b2 ->
  usable ds b2 ->
  plain ds ->
  no_fallback ds ->
  types_ok ds ->
  forall ks1 ks2 : list (token V),
  tokens_wf b1 ks1 ->
  tokens_wf b2 ks2 ->
  reading b1 sm ks1 = reading b2 sm ks2 ->
  forall (x : X) (r : V) (x' : X), answers b1 sm x ks1 r x' -> answers_or_overflows b2 sm x ks2 r x'.
Proof. exact @order_unseen. Qed.
Print Assumptions C31_order_unseen.

(** ** C32. Rule blocks receive values of the declared types *)

(** Checking the type of every value handed to a block changes nothing. *)
Theorem C32_typed_values :
  forall (ds : list decl) (b : built),
  expands ds b ->
  usable ds b ->
  forall (V X E : Type) (sm : sem V X E) (has : ty -> V -> bool) (n : nat) (x : X) (ks : list (token V)),
  types_ok ds ->
  well_typed ds has sm ->
  tokens_wf b ks ->
  typed_tokens ds b has ks ->
  api_run n (bt_tables b) sm x ks <> RPanic /\
  run n (bt_tables b) (guarded ds (bt_tables b) has sm) x (map (token_value (bt_tables b) sm) ks) =
  api_run n (bt_tables b) sm x ks.
Proof. exact @typed_values. Qed.
Print Assumptions C32_typed_values.

(** A type on the error symbol changes which handler runs. *)
Theorem C32_error_type_refuted :
  demo esem ety_ds [1; 1] = Fail_ 88 /\ demo esem (tl ety_ds) [1; 1; 2] = Accept_ VUnit [77; 1].
Proof. exact @error_type_refuted. Qed.
Print Assumptions C32_error_type_refuted.

(** ** C33. A token class is equivalent to listing its members *)

(** Replacing class names by the lists of their members changes no answer. *)
Theorem C33_class_spelled_out :
  forall ds1 ds2 : list decl,
  Forall2 (spelled_decl ds1) ds1 ds2 ->
  forall (b1 b2 : built) (V X E : Type) (sm : sem V X E),
  expands ds1 b1 ->
  usable ds1 b1 ->
  expands ds2 b2 ->
  usable ds2 b2 ->
  plain ds1 ->
  no_fallback ds1 ->
  types_ok ds1 ->
  types_ok ds2 ->
  forall ks1 ks2 : list (token V),
  tokens_wf b1 ks1 ->
  tokens_wf b2 ks2 ->
  reading b1 sm ks1 = reading b2 sm ks2 ->
  forall (x : X) (r : V) (x' : X),
  (answers b1 sm x ks1 r x' -> answers_or_overflows b2 sm x ks2 r x') /\
  (answers b2 sm x ks2 r x' -> answers_or_overflows b1 sm x ks1 r x').
Proof. exact @class_spelled_out. Qed.
Print Assumptions C33_class_spelled_out.

(** ** C34. A rule's precedence *)

(** Each rule has the precedence read off its declaration. *)
Theorem C34_rule_precedence :
  forall (ds : list decl) (b : built),
  expands ds b ->
  forall (k : nat) (d : drule),
  nth_error (rules_in ds) k = Some d ->
  exists ru : rule,
    nth_error (g_rules (bt_grammar b)) k = Some ru /\
    at_name (bt_grammar b) (r_lhs ru) (d_lhs d) /\ r_prec ru = prec_of ds d.
Proof. exact @rule_precedence_decl. Qed.
Print Assumptions C34_rule_precedence.

(** A later line has a higher level. *)
Theorem C34_later_binds_tighter :
  forall (ds : list decl) (b : built),
  expands ds b ->
  forall (l1 l2 l3 : list decl) (a1 a2 : assoc) (ids1 ids2 : list ident) (n1 n2 : ident),
  ds = l1 ++ DAssoc a1 ids1 :: l2 ++ DAssoc a2 ids2 :: l3 ->
  In n1 ids1 ->
  In n2 ids2 ->
  exists k1 k2 : nat, assoc_of ds n1 = Some (k1, a1) /\ assoc_of ds n2 = Some (k2, a2) /\ k1 < k2.
Proof. exact @later_binds_tighter. Qed.
Print Assumptions C34_later_binds_tighter.

(** ** C35. Default reductions never change the outcome *)

(** The generated parser answers like a parser that uses the uncompressed action lists. *)
Theorem C35_compression_kept :
  forall (ds : list decl) (b : built),
  expands ds b ->
  forall (V X E : Type) (sm : sem V X E) (x : X) (ks : list (token V)) (r : V) (x' : X),
  usable ds b ->
  wildcard_of ds = None ->
  (forall (a : ident) (l : nat), assoc_of ds a = Some (l, ANone) -> fallback_of ds a = None) ->
  tokens_wf b ks ->
  let rp :=
    rparse (bt_grammar b) (bt_acts b) (user_hooks (bt_tables b) sm)
      [(0, h_unit (user_hooks (bt_tables b) sm))] x (map (token_value (bt_tables b) sm) ks) x' r in
  (forall (n : nat) (pp : parser (minor V) X V),
   api_run n (bt_tables b) sm x ks = ROk (r, x') pp -> ~ dropped pp -> rp) /\
  (rp ->
   exists n : nat,
     forall n' : nat,
     n <= n' ->
     (exists pp : parser (minor V) X V,
        api_run n' (bt_tables b) sm x ks = ROk (r, x') pp /\ ~ dropped pp) \/
     overflowed (bt_tables b) (user_hooks (bt_tables b) sm) (api_run n' (bt_tables b) sm x ks)).
Proof. exact @compression_kept. Qed.
Print Assumptions C35_compression_kept.

(** ** C36. The macro does not panic *)

(** Whatever the declarations, if every token class has a first member other than itself and no shift that competes with another leads back to its own state. ([elems_named] is what the syn parser ensures.) *)
Theorem C36_macro_never_panics :
  forall (fuel : nat) (ord : list (nat * nat) -> list (nat * nat)) (ds : list decl),
  hash_order ord -> elems_named ds -> classes_begin ds -> shifts_leave ds -> build fuel ord ds <> GPanic.
Proof. exact @no_macro_panic. Qed.
Print Assumptions C36_macro_never_panics.

(** Such a shift is the only reason for a panic: it is a conflict that is not reported. *)
Theorem C36_panic_reason :
  forall (fuel : nat) (ord : list (nat * nat) -> list (nat * nat)) (ds : list decl),
  hash_order ord ->
  elems_named ds ->
  classes_begin ds -> build fuel ord ds = GPanic -> exists g : grammar, written ds g /\ looping_shift g.
Proof. exact @macro_panic_reason. Qed.
Print Assumptions C36_panic_reason.

(** Exactly these states make the step panic, *)
Theorem C36_step_panics :
  forall g : grammar,
  wf_grammar g -> forall p : pst, Aut g p -> find_actions g p = GPanic <-> looping_shift g.
Proof. exact @actions_panic. Qed.
Print Assumptions C36_step_panics.

(** and the second sort of the actions never does. *)
Theorem C36_second_sort :
  forall g : grammar,
  wf_grammar g ->
  forall p : pst,
  Aut g p ->
  forall (p3 : pst) (n s : nat) (ign : list nat) (r : nat),
  find_actions g p = GOk (p3, n) ->
  s < List.length (p_states p) ->
  sort_panics s (make_default g ign r (s_actions (pstate p3 s))) = false.
Proof. exact @second_sort_quiet. Qed.
Print Assumptions C36_second_sort.

(** Where every element is a single symbol that is no class there is no such shift. *)
Theorem C36_lone_tokens :
  forall ds : list decl, lone_tokens ds -> shifts_leave ds.
Proof. exact @lone_leave. Qed.
Print Assumptions C36_lone_tokens.

(** With C30: the macro always comes back with the parser or with an error message. *)
Theorem C36_macro_answers :
  forall (ds : list decl) (ord : list (nat * nat) -> list (nat * nat)),
  no_self_fallback ds ->
  elems_named ds ->
  classes_begin ds ->
  shifts_leave ds ->
  hash_order ord ->
  exists (n : nat) (r : gres built),
    (forall n' : nat, n <= n' -> build n' ord ds = r) /\
    ((exists b : built, r = GOk b) \/ (exists e : gerr, r = GErr e)).
Proof. exact @expansion_answers. Qed.
Print Assumptions C36_macro_answers.

(** An empty class, or one beginning with itself, makes the macro panic; so do two competing classes at the head of a right recursive rule. *)
Theorem C36_classes_refuted :
  (elems_named empty_class_ds /\ build 300 ida empty_class_ds = GPanic) /\
  (elems_named own_class_ds /\ build 300 ida own_class_ds = GPanic) /\
  elems_named looping_ds /\ classes_begin looping_ds /\ build 300 ida looping_ds = GPanic.
Proof. exact @macro_panic_refuted. Qed.
Print Assumptions C36_classes_refuted.

(** From the text: whatever tokens stand in the block. That elements have names is now proved of the reader. *)
Theorem C36_text_never_panics :
  forall sy : syn,
  syn_ok sy ->
  forall (fuel : nat) (ord : list (nat * nat) -> list (nat * nat)) (ts : list tok),
  hash_order ord ->
  (forall ds : list decl, read sy ts = Some ds -> classes_begin ds /\ shifts_leave ds) ->
  macro sy fuel ord ts <> Some GPanic.
Proof. exact @macro_no_panic. Qed.
Print Assumptions C36_text_never_panics.

(** From the text: a message of the reader, a message of the generator, or the parser. *)
Theorem C36_text_answers :
  forall sy : syn,
  syn_ok sy ->
  forall (ord : list (nat * nat) -> list (nat * nat)) (ts : list tok),
  hash_order ord ->
  (forall ds : list decl,
   read sy ts = Some ds -> classes_begin ds /\ shifts_leave ds /\ no_self_fallback ds) ->
  exists (n : nat) (r : option (gres built)),
    (forall n' : nat, n <= n' -> macro sy n' ord ts = r) /\
    (r = None \/ (exists b : built, r = Some (GOk b)) \/ (exists e : gerr, r = Some (GErr e))).
Proof. exact @macro_answers. Qed.
Print Assumptions C36_text_answers.

(** ** C37. The text of a grammar has one reading, and the macro finds it *)

(** The reader answers [ds] exactly when the tokens are a text of [ds] by the grammar of declarations [decls_text]; [syn_ok] is what is assumed of syn's own parsers. *)
Theorem C37_reading_found :
  forall (sy : syn) (ts : list tok) (ds : list decl),
  syn_ok sy -> read sy ts = Some ds <-> decls_text sy ds ts.
Proof. exact @read_iff. Qed.
Print Assumptions C37_reading_found.

(** So no text can be read in two ways. *)
Theorem C37_reading_unique :
  forall (sy : syn) (ts : list tok) (ds1 ds2 : list decl),
  syn_ok sy -> decls_text sy ds1 ts -> decls_text sy ds2 ts -> ds1 = ds2.
Proof. exact @text_unique. Qed.
Print Assumptions C37_reading_unique.

(** Texts closed by a semicolon or a block, or followed by a directive, are read independently. *)
Theorem C37_texts_apart :
  forall sy : syn,
  syn_ok sy ->
  forall (ts1 ts2 : list tok) (ds1 ds2 : list decl),
  closes ts1 \/ (exists r : list tok, ts2 = PCT :: r) ->
  read sy ts1 = Some ds1 -> read sy ts2 = Some ds2 -> read sy (ts1 ++ ts2) = Some (ds1 ++ ds2).
Proof. exact @texts_apart. Qed.
Print Assumptions C37_texts_apart.

(** The semicolon of a rule without a block is not really optional: the next rule's name is taken for a symbol and the text is rejected. *)
Theorem C37_semicolon_refuted :
  forall sy : syn,
  read sy rule_ab = Some [DRule "a" [(["B"], false, None)] None None] /\
  read sy rule_cd = Some [DRule "c" [(["D"], false, None)] None None] /\
  read sy (rule_ab ++ rule_cd) = None /\
  read sy (rule_ab ++ SEMI :: rule_cd) =
  Some [DRule "a" [(["B"], false, None)] None None; DRule "c" [(["D"], false, None)] None None].
Proof. exact @semicolon_refuted. Qed.
Print Assumptions C37_semicolon_refuted.

(** ** C38. The macro rejects a grammar only for the fault it reports, and a grammar it accepts has none *)

(** The error the macro reports names a fault that the declarations have. *)
Theorem C38_rejected_for_a_reason :
  forall (fuel : nat) (ord : list (nat * nat) -> list (nat * nat)) (ds : list decl) (e : gerr),
  hash_order ord ->
  (e = EFallbackType \/ e = ECompoundAlias -> flat_decls ds) -> build fuel ord ds = GErr e -> fault ds e.
Proof. exact @rejected_for_a_reason. Qed.
Print Assumptions C38_rejected_for_a_reason.

(** A grammar that is expanded has no fault, *)
Theorem C38_accepted_faultless :
  forall (ds : list decl) (b : built),
  expands ds b ->
  forall e : gerr, (e = EFallbackType \/ e = ECompoundAlias -> flat_decls ds) -> ~ fault ds e.
Proof. exact @expanded_faultless. Qed.
Print Assumptions C38_accepted_faultless.

(** in particular no two moves are left undecided in its grammar and no rule is lost. *)
Theorem C38_accepted_decided :
  forall (ds : list decl) (b : built),
  expands ds b -> ~ conflicting (bt_grammar b) /\ (forall r : nat, ~ lost (bt_grammar b) r).
Proof. exact @expanded_decided. Qed.
Print Assumptions C38_accepted_decided.

(** A grammar is accepted exactly if it has no fault. *)
Theorem C38_accepted_exactly :
  forall ds : list decl,
  no_self_fallback ds ->
  elems_named ds ->
  classes_begin ds ->
  flat_decls ds -> (exists b : built, expands ds b) <-> (forall e : gerr, ~ fault ds e).
Proof. exact @accepted_exactly. Qed.
Print Assumptions C38_accepted_exactly.

(** Here and elsewhere a name is one of a token if it begins with a letter A to Z, and one of a nonterminal if it begins with a letter a to z. *)
Theorem C38_initials :
  forall n : ident,
  (is_terminal_ident n = true <-> begins_with capitals n) /\
  (is_nonterminal_ident n = true <-> begins_with smalls n).
Proof. exact @initials. Qed.
Print Assumptions C38_initials.

(** ** C39. Operators bind as declared *)

(** The value returned is that of a derivation tree in which operators are nested, and the dangling else attached, as the precedences say. *)
Theorem C39_operators_bind :
  forall (ds : list decl) (b : built),
  expands ds b ->
  usable ds b ->
  forall (V X E : Type) (sm : sem V X E) (n : nat) (x : X) (ks : list (token V)) 
    (r : V) (x' : X) (pp : parser (minor V) X V),
  wildcard_of ds = None ->
  (forall (a : ident) (l : nat), assoc_of ds a = Some (l, ANone) -> fallback_of ds a = None) ->
  tokens_wf b ks ->
  api_run n (bt_tables b) sm x ks = ROk (r, x') pp ->
  ~ dropped pp ->
  exists (s : ident) (v : V) (T : dtree),
    start_of ds = Some s /\
    meant ds sm (taken ds) s (reading b sm ks) x x' v T /\
    r = root_value ds sm s v /\ nested ds T /\ attached ds T.
Proof. exact @operators_bind. Qed.
Print Assumptions C39_operators_bind.

(** ** C40. The dangling else is attached as declared *)

(** The same for the dangling else alone. *)
Theorem C40_else_attached :
  forall (ds : list decl) (b : built),
  expands ds b ->
  usable ds b ->
  forall (V X E : Type) (sm : sem V X E) (n : nat) (x : X) (ks : list (token V)) 
    (r : V) (x' : X) (pp : parser (minor V) X V),
  wildcard_of ds = None ->
  (forall (a : ident) (l : nat), assoc_of ds a = Some (l, ANone) -> fallback_of ds a = None) ->
  tokens_wf b ks ->
  api_run n (bt_tables b) sm x ks = ROk (r, x') pp ->
  ~ dropped pp ->
  exists (s : ident) (v : V) (T : dtree),
    start_of ds = Some s /\
    meant ds sm (taken ds) s (reading b sm ks) x x' v T /\ r = root_value ds sm s v /\ attached ds T.
Proof. exact @else_attached. Qed.
Print Assumptions C40_else_attached.

(** ** C41. Operator grammars lose no sentence *)

(** If no infix or postfix operator is %nonassoc and no block fails, every sentence is accepted, with the value of a tree nested as declared. *)
Theorem C41_operators_complete :
  forall (ds : list decl) (b : built),
  expands ds b ->
  usable ds b ->
  forall (V X E : Type) (sm : sem V X E),
  (forall (c : Syntax.code) (args : list V) (x : X),
   exists (x' : X) (v : V), u_block sm c args x = (x', inl v)) ->
  forall (s n : ident) (ks : list (token V)) (x : X),
  operators ds s n ->
  wildcard_of ds = None ->
  (forall (a : ident) (l : nat), assoc_of ds a = Some (l, ANone) -> fallback_of ds a = None) ->
  (forall (j : nat) (a : ident) (l : nat), starts_with ds j n a -> assoc_of ds a <> Some (l, ANone)) ->
  types_ok ds ->
  tokens_wf b ks ->
  says ds eq s (map fst (reading b sm ks)) ->
  exists (x' : X) (v : V) (T : dtree),
    meant ds sm eq s (reading b sm ks) x x' v T /\
    nested ds T /\ answers_or_overflows b sm x ks (root_value ds sm s v) x'.
Proof. exact @operators_complete. Qed.
Print Assumptions C41_operators_complete.

(** With %nonassoc too: every tree nested as declared is accepted, with its value. *)
Theorem C41_operators_exact :
  forall (ds : list decl) (b : built),
  expands ds b ->
  usable ds b ->
  forall (V X E : Type) (sm : sem V X E) (s n : ident) (ks : list (token V)) 
    (x x' : X) (v : V) (T : dtree),
  operators ds s n ->
  wildcard_of ds = None ->
  (forall (a : ident) (l : nat), assoc_of ds a = Some (l, ANone) -> fallback_of ds a = None) ->
  types_ok ds ->
  tokens_wf b ks ->
  meant ds sm eq s (reading b sm ks) x x' v T ->
  nested ds T -> answers_or_overflows b sm x ks (root_value ds sm s v) x'.
Proof. exact @operators_exact. Qed.
Print Assumptions C41_operators_exact.

(** Without %fallback: what is accepted, and with which value. *)
Theorem C41_operators_iff :
  forall (ds : list decl) (b : built),
  expands ds b ->
  usable ds b ->
  forall (V X E : Type) (sm : sem V X E) (s n : ident) (ks : list (token V)) (x : X) (r : V) (x' : X),
  operators ds s n ->
  wildcard_of ds = None ->
  no_fallback ds ->
  types_ok ds ->
  tokens_wf b ks ->
  let read :=
    exists (v : V) (T : dtree),
      meant ds sm eq s (reading b sm ks) x x' v T /\ nested ds T /\ r = root_value ds sm s v in
  (answers b sm x ks r x' -> read) /\ (read -> answers_or_overflows b sm x ks r x').
Proof. exact @operators_iff. Qed.
Print Assumptions C41_operators_iff.

(** Such a tree is unique. *)
Theorem C41_nested_unique :
  forall (ds : list decl) (b : built),
  expands ds b ->
  usable ds b ->
  forall (s n : ident) (w : list ident) (T1 T2 : dtree),
  operators ds s n ->
  wildcard_of ds = None ->
  (forall (a : ident) (l : nat), assoc_of ds a = Some (l, ANone) -> fallback_of ds a = None) ->
  Forall (fun a : ident => class_of ds a = None) w ->
  tree_of ds s w T1 -> nested ds T1 -> tree_of ds s w T2 -> nested ds T2 -> T1 = T2.
Proof. exact @nested_unique. Qed.
Print Assumptions C41_nested_unique.

(** ** C42. Rule blocks see the extra value the caller left between the calls *)

(** An accepted session has a reading in which the caller's change after a token comes after every block of what precedes that token and before every block that needs it. *)
Theorem C42_session_means :
  forall (ds : list decl) (b : built),
  expands ds b ->
  usable ds b ->
  forall (V X E : Type) (sm : sem V X E) (n : nat) (x : X) (ks : list (token V * (X -> X))) 
    (r : V) (x' : X) (pp : parser (minor V) X V),
  tokens_wf b (map fst ks) ->
  api_with n (bt_tables b) sm x ks = ROk (r, x') pp ->
  ~ dropped pp ->
  exists (s : ident) (v : V),
    start_of ds = Some s /\
    timed ds sm (taken ds) s (reading_with b sm ks) x x' v /\ r = root_value ds sm s v.
Proof. exact @session_means. Qed.
Print Assumptions C42_session_means.

(** Every such reading is accepted, with its value and its final extra value. *)
Theorem C42_session_accepted :
  forall (ds : list decl) (b : built),
  expands ds b ->
  usable ds b ->
  forall (V X E : Type) (sm : sem V X E) (ks : list (token V * (X -> X))) (s : ident) (x x' : X) (v : V),
  plain ds ->
  types_ok ds ->
  tokens_wf b (map fst ks) ->
  start_of ds = Some s ->
  timed ds sm eq s (reading_with b sm ks) x x' v ->
  exists n : nat,
    forall n' : nat,
    n <= n' ->
    (exists pp : parser (minor V) X V,
       api_with n' (bt_tables b) sm x ks = ROk (root_value ds sm s v, x') pp) \/
    overflowed (bt_tables b) (user_hooks (bt_tables b) sm) (api_with n' (bt_tables b) sm x ks).
Proof. exact @session_accepted. Qed.
Print Assumptions C42_session_accepted.

(** A caller who changes nothing gets the plain run. *)
Theorem C42_idle_session :
  forall (V X E : Type) (n : nat) (t : tables) (sm : sem V X E) (x : X) (ks : list (token V)),
  api_with n t sm x (map (fun k : token V => (k, fun y : X => y)) ks) = api_run n t sm x ks.
Proof. exact @idle_session. Qed.
Print Assumptions C42_idle_session.

(** And the reading is then the one of C01. *)
Theorem C42_idle_timed :
  forall (ds : list decl) (V X E : Type) (sm : sem V X E) (tk : ident -> ident -> Prop) 
    (n : ident) (w : list (ident * (V * (X -> X)))) (x x' : X) (v : V),
  timed ds sm tk n w x x' v ->
  Forall (fun q : ident * (V * (X -> X)) => forall y : X, snd (snd q) y = y) w ->
  means ds sm tk n (map (fun q : ident * (V * (X -> X)) => (fst q, fst (snd q))) w) x x' v.
Proof. exact @idle_timed. Qed.
Print Assumptions C42_idle_timed.

(** ** C43. The Token enum carries the declared data *)

(** One variant for each token mentioned, whose field has the type the declarations give it. *)
Theorem C43_token_variants :
  forall (ds : list decl) (b : built),
  expands ds b ->
  flat_decls ds ->
  exists vs : list variant,
    token_enum (bt_grammar b) = GOk vs /\
    NoDup (map va_name vs) /\
    (forall n : ident, In n (map va_name vs) <-> upper n /\ class_of ds n = None /\ mentions ds n) /\
    (forall v : variant, In v vs -> va_field v = token_type ds (va_name v)).
Proof. exact @token_variants. Qed.
Print Assumptions C43_token_variants.

(** With %extra_token: every variant has the shared part, which into_extra() and extra() give and extra_mut() replaces, leaving the rest. *)
Theorem C43_token_extra :
  forall (ds : list decl) (b : built),
  expands ds b ->
  flat_decls ds ->
  forall (named : string -> Type) (et : ty) (vs : list variant) (v : variant),
  extra_token_of ds = Some et ->
  token_enum (bt_grammar b) = GOk vs ->
  In v vs ->
  type_of ds (va_name v) = None /\
  va_field v = Some et /\
  (exists
     (a : arm) (get : values named et -> values named et) (set : values named et ->
                                                                 values named et -> values named et),
     va_arm v = Some a /\
     access named et a et = Some (get, set) /\
     (forall e : values named et, get e = e) /\ (forall e e' : values named et, set e e' = e')) \/
  (exists T : ty,
     type_of ds (va_name v) = Some T /\
     va_field v = Some (TyPair et T) /\
     (exists
        (a : arm) (get : values named (TyPair et T) -> values named et) (set : 
                                                                         values named (TyPair et T) ->
                                                                         values named et ->
                                                                         values named (TyPair et T)),
        va_arm v = Some a /\
        access named et a (TyPair et T) = Some (get, set) /\
        (forall (e : values named et) (x : values named T), get (e, x) = e) /\
        (forall (e e' : values named et) (x : values named T), set (e, x) e' = (e', x)))).
Proof. exact @token_extra. Qed.
Print Assumptions C43_token_extra.

(** %extra_token leaves the non-terminals alone. *)
Theorem C43_nonterm_types :
  forall (ds : list decl) (b : built),
  expands ds b ->
  flat_decls ds ->
  exists (m : typemap) (syms : list symbol) (dts : list nat),
    type_symbols (bt_grammar b) = GOk (m, syms, dts) /\
    (forall (i : nat) (n : string),
     at_name (bt_grammar b) i n ->
     lower n ->
     sy_type (nth i syms dummy_sym) =
     match type_of ds n with
     | Some T => Some T
     | None => default_type_of ds
     end).
Proof. exact @nonterm_types. Qed.
Print Assumptions C43_nonterm_types.

(** ** C44. An accepted input with wrong tokens still means something *)

(** Every accepted input, with each token's fate, is a reading in the sense of [mended]: wrong tokens are passed over, or belong to an [error] together with the pieces given up for them. *)
Theorem C44_mended_means :
  forall (ds : list decl) (b : built),
  expands ds b ->
  usable ds b ->
  forall (V X E : Type) (sm : sem V X E) (n : nat) (x : X) (ks : list (token V)) 
    (r : V) (x' : X) (pp : parser (minor V) X V),
  tokens_wf b ks ->
  api_run n (bt_tables b) sm x ks = ROk (r, x') pp ->
  exists (s : ident) (v : V),
    start_of ds = Some s /\
    List.length (fates (ps_log pp)) = List.length ks /\
    mended ds sm (taken ds) (fun k : token V => tok_name b (fst k)) s (combine ks (fates (ps_log pp))) x
      x' v /\ r = root_value ds sm s v.
Proof. exact @mended_means. Qed.
Print Assumptions C44_mended_means.

(** If nothing was wrong this is a reading as in C01; without a mention of [error], and with a handler that leaves the extra value alone, so are the tokens that were not dropped. *)
Theorem C44_kept_means :
  forall (ds : list decl) (V X E : Type) (sm : sem V X E) (tk : ident -> ident -> Prop)
    (nm : token V -> ident) (n : ident) (w : list (token V * fate)) (x x' : X) 
    (v : V),
  Forall (fun q : token V * fate => snd q = Shifted) w \/
  ~ mentions ds "error" /\ (forall (k : token V) (y y' : X) (u : V), report sm k y y' u -> y' = y) ->
  mended ds sm tk nm n w x x' v -> means ds sm tk n (Claims20.kept sm nm w) x x' v.
Proof. exact @kept_means. Qed.
Print Assumptions C44_kept_means.

(** Every token was shifted exactly if none was dropped. *)
Theorem C44_shifted_all :
  forall (M X R : Type) (pp : parser M X R),
  ~ dropped pp <-> Forall (fun f : fate => f = Shifted) (fates (ps_log pp)).
Proof. exact @shifted_all. Qed.
Print Assumptions C44_shifted_all.

(** ** C45. Parsing takes linear time *)

(** One constant for all inputs: a parse ends within a number of steps proportional to the number of tokens, and the stack stays within it, too. *)
Theorem C45_linear :
  forall (ds : list decl) (b : built),
  expands ds b ->
  usable ds b ->
  (forall n : ident, assoc_of ds n = None) \/ acyclic ds ->
  limit_of ds <> 0 \/ no_hidden ds \/ (forall n : ident, assoc_of ds n = None) /\ all_say ds ->
  types_ok ds ->
  exists k : nat,
    forall (V X E : Type) (sm : sem V X E) (x : X) (ks : list (token V)),
    tokens_wf b ks ->
    (forall n : nat,
     k * S (List.length ks) <= n ->
     exists p : parser (minor V) X V, ends_with (api_run n (bt_tables b) sm x ks) p) /\
    (forall (n : nat) (p : parser (minor V) X V),
     ends_with (api_run n (bt_tables b) sm x ks) p ->
     List.length (ps_log p) <= k * S (List.length ks)) /\
    (forall (n : nat) (p : parser (minor V) X V),
     ends_with
       (parse_all n (bt_tables b) (user_hooks (bt_tables b) sm)
          (new_parser (user_hooks (bt_tables b) sm) x) (map (token_value (bt_tables b) sm) ks)) p ->
     List.length (ps_log p) + List.length (ps_stack p) <= k * S (List.length ks)).
Proof. exact @linear_time. Qed.
Print Assumptions C45_linear.

(** Whatever the user's blocks and handlers count in the extra value grows by at most a constant for each token. *)
Theorem C45_calls :
  forall (ds : list decl) (b : built),
  expands ds b ->
  usable ds b ->
  (forall n : ident, assoc_of ds n = None) \/ acyclic ds ->
  limit_of ds <> 0 \/ no_hidden ds \/ (forall n : ident, assoc_of ds n = None) /\ all_say ds ->
  types_ok ds ->
  exists k : nat,
    forall (V X E : Type) (sm : sem V X E) (mu : X -> nat) (x : X) (ks : list (token V)),
    one_each mu sm ->
    tokens_wf b ks ->
    forall (n : nat) (p : parser (minor V) X V),
    ends_with (api_run n (bt_tables b) sm x ks) p ->
    mu (ps_extra p) <= mu x + k * S (List.length ks).
Proof. exact @linear_calls. Qed.
Print Assumptions C45_calls.

(** ** C46. The order of the declarations does not matter *)

(** A grammar whose declarations are rearranged is accepted if the first one was: the precedence lines keep their order among themselves, and so do the rules that have a precedence; no %stack_size, %type of one name or %token_class of one name is repeated. *)
Theorem C46_accepted :
  forall (ds1 ds2 : list decl) (b1 : built),
  expands ds1 b1 ->
  rearranged ds1 ds2 ->
  no_rivals ds1 ->
  filter (weighed ds1) (rules_in ds1) = filter (weighed ds1) (rules_in ds2) ->
  no_self_fallback ds1 ->
  flat_decls ds1 -> elems_named ds1 -> classes_begin ds1 -> exists b2 : built, expands ds2 b2.
Proof. exact @rearranged_accepted. Qed.
Print Assumptions C46_accepted.

(** The two parsers return the same for every input that one of them accepts without dropping a token, unless the other runs into the stack limit. *)
Theorem C46_answers :
  forall (ds1 ds2 : list decl) (b1 b2 : built),
  expands ds1 b1 ->
  usable ds1 b1 ->
  expands ds2 b2 ->
  usable ds2 b2 ->
  rearranged ds1 ds2 ->
  no_rivals ds1 ->
  filter (weighed ds1) (rules_in ds1) = filter (weighed ds1) (rules_in ds2) ->
  types_ok ds1 ->
  wildcard_of ds1 = None ->
  (forall (a : ident) (l : nat), assoc_of ds1 a = Some (l, ANone) -> fallback_of ds1 a = None) ->
  forall (V X E : Type) (sm : sem V X E) (ks1 ks2 : list (token V)),
  tokens_wf b1 ks1 ->
  tokens_wf b2 ks2 ->
  reading b1 sm ks1 = reading b2 sm ks2 ->
  forall (x : X) (r : V) (x' : X),
  (answers b1 sm x ks1 r x' -> answers_or_overflows b2 sm x ks2 r x') /\
  (answers b2 sm x ks2 r x' -> answers_or_overflows b1 sm x ks1 r x').
Proof. exact @rearranged_answers. Qed.
Print Assumptions C46_answers.

(** Without the condition on repeated lines: two %stack_size lines, and two %type lines for one token, that are accepted in one order and an error in the other. *)
Theorem C46_directives_refuted :
  (exists (n m : nat) (t : ty) (b : built),
     expands (sizes_ds (DStackSize n None) (DStackSize m (Some t))) b /\
     (forall b' : built, ~ expands (sizes_ds (DStackSize m (Some t)) (DStackSize n None)) b')) /\
  (exists (t : ty) (b : built),
     expands (sizes_ds (DType 0 "A" None) (DType 0 "A" (Some t))) b /\
     (forall b' : built, ~ expands (sizes_ds (DType 0 "A" (Some t)) (DType 0 "A" None)) b')).
Proof. exact @directive_order_refuted. Qed.
Print Assumptions C46_directives_refuted.

(** Without the condition on the rules: of two rules of the same %left level the later one is taken. *)
Theorem C46_rules_refuted :
  exists (ds1 ds2 : list decl) (b1 b2 : built) (ks : list (token val)),
    expands ds1 b1 /\
    usable ds1 b1 /\
    expands ds2 b2 /\
    usable ds2 b2 /\
    types_ok ds1 /\
    rearranged ds1 ds2 /\
    no_rivals ds1 /\
    wildcard_of ds1 = None /\
    (forall n : ident, fallback_of ds1 n = None) /\
    tokens_wf b1 ks /\
    tokens_wf b2 ks /\
    reading b1 dsem ks = reading b2 dsem ks /\
    (exists (n : nat) (pp : parser (minor val) (list Syntax.code) val),
       api_run n (bt_tables b1) dsem [] ks = ROk (VUnit, [6; 2]) pp) /\
    (exists (n : nat) (pp : parser (minor val) (list Syntax.code) val),
       api_run n (bt_tables b2) dsem [] ks = ROk (VUnit, [5; 1]) pp).
Proof. exact @rule_order_refuted. Qed.
Print Assumptions C46_rules_refuted.

(** ** C47. The report of the states tells the truth *)

(** Whatever is reported, for a conflict or with %verbose: there is one section for each set of items that some beginning of an input leads to; it lists these items, the lines of each token are the moves the grammar offers there, the lines marked as conflicts are exactly the choices that precedences leave open, the unmarked lines are the moves that win, and the numbers of states lead to the right sections. *)
Theorem C47_report_true :
  forall (fuel : nat) (ord : list (nat * nat) -> list (nat * nat)) (ds : list decl) 
    (ks : list section) (tail : list string) (c : bool),
  hash_order ord ->
  names_spaceless ds ->
  build_report fuel ord ds = GOk (Some (ks, tail), c) ->
  exists (g : grammar) (at_ : list nat -> nat -> Prop),
    written ds g /\
    explains g ks at_ /\
    (c = true <-> conflicting g) /\
    (In DVerbose ds -> lists_symbols g tail) /\ (~ In DVerbose ds -> tail = []).
Proof. exact @report_right. Qed.
Print Assumptions C47_report_true.

(** The error about conflicts carries a report; an accepted grammar has one exactly if it says %verbose. *)
Theorem C47_when_reported :
  forall (fuel : nat) (ord : list (nat * nat) -> list (nat * nat)) (ds : list decl),
  hash_order ord ->
  (build fuel ord ds = GErr EConflicts <->
   (exists r : list section * list string, build_report fuel ord ds = GOk (Some r, true))) /\
  (forall b : built,
   build fuel ord ds = GOk b ->
   exists o : option (list section * list string),
     build_report fuel ord ds = GOk (o, false) /\ (In DVerbose ds <-> o <> None)).
Proof. exact @report_when. Qed.
Print Assumptions C47_when_reported.

(** ** C48. Extending a grammar keeps what it accepted *)

(** If rules, fallbacks, members of classes, and types and classes of new names are added and the macro accepts the result, every input that was accepted is accepted with the same block calls, result and extra value, or hits the stack limit. For grammars without precedences and wildcard, the old one without fallbacks. *)
Theorem C48_extension_keeps :
  forall (ds1 ds2 : list decl) (b1 b2 : built) (V X E : Type) (sm : sem V X E),
  Claims23.grown ds1 ds1 ds2 ->
  expands ds1 b1 ->
  usable ds1 b1 ->
  expands ds2 b2 ->
  usable ds2 b2 ->
  no_fallback ds1 ->
  plain ds2 ->
  types_ok ds2 ->
  start_of ds1 = start_of ds2 ->
  forall ks1 ks2 : list (token V),
  tokens_wf b1 ks1 ->
  tokens_wf b2 ks2 ->
  reading b1 sm ks1 = reading b2 sm ks2 ->
  forall (x : X) (r : V) (x' : X), answers b1 sm x ks1 r x' -> answers_or_overflows b2 sm x ks2 r x'.
Proof. exact @extension_keeps. Qed.
Print Assumptions C48_extension_keeps.

(** With precedences a new rule can change what an old input means. *)
Theorem C48_precedence_refuted :
  exists (ds1 ds2 : list decl) (b1 b2 : built) (ks : list (token val)),
    Claims23.grown ds1 ds1 ds2 /\
    expands ds1 b1 /\
    usable ds1 b1 /\
    expands ds2 b2 /\
    usable ds2 b2 /\
    no_fallback ds1 /\
    wildcard_of ds2 = None /\
    types_ok ds2 /\
    start_of ds1 = start_of ds2 /\
    tokens_wf b1 ks /\
    tokens_wf b2 ks /\
    reading b1 dsem ks = reading b2 dsem ks /\
    (exists (n : nat) (pp : parser (minor val) (list Syntax.code) val),
       api_run n (bt_tables b1) dsem [] ks = ROk (VUnit, [3; 1]) pp) /\
    (exists (n : nat) (pp : parser (minor val) (list Syntax.code) val),
       api_run n (bt_tables b2) dsem [] ks = ROk (VUnit, [4]) pp).
Proof. exact @extension_precedence_refuted. Qed.
Print Assumptions C48_precedence_refuted.

(** So can a new rule for a token that fell back before. *)
Theorem C48_fallback_refuted :
  exists (ds1 ds2 : list decl) (b1 b2 : built) (ks1 ks2 : list (token val)),
    Claims23.grown ds1 ds1 ds2 /\
    expands ds1 b1 /\
    usable ds1 b1 /\
    expands ds2 b2 /\
    usable ds2 b2 /\
    plain ds2 /\
    types_ok ds2 /\
    start_of ds1 = start_of ds2 /\
    tokens_wf b1 ks1 /\
    tokens_wf b2 ks2 /\
    reading b1 dsem ks1 = reading b2 dsem ks2 /\
    (exists (n : nat) (pp : parser (minor val) (list Syntax.code) val),
       api_run n (bt_tables b1) dsem [] ks1 = ROk (VUnit, [1]) pp) /\
    (exists (n : nat) (pp : parser (minor val) (list Syntax.code) val),
       api_run n (bt_tables b2) dsem [] ks2 = ROk (VUnit, [2]) pp).
Proof. exact @extension_fallback_refuted. Qed.
Print Assumptions C48_fallback_refuted.

(** ** C49. Renaming the symbols changes nothing but the names *)

(** A renaming that keeps different names different, keeps upper and lower case and leaves error alone: the renamed grammar is accepted exactly if the original is, and the two parsers do the same at every call, for all user code; their lists of token names differ by the renaming. *)
Theorem C49_renaming :
  forall (u : ident -> ident) (ds : list decl),
  renaming u ds ->
  (forall b : built,
   expands ds b ->
   exists b' : built,
     expands (map (ren_decl u) ds) b' /\
     same_parser b b' /\ t_names (bt_tables b') = map (rename u) (t_names (bt_tables b))) /\
  (forall b' : built,
   expands (map (ren_decl u) ds) b' ->
   exists b : built,
     expands ds b /\ same_parser b b' /\ t_names (bt_tables b') = map (rename u) (t_names (bt_tables b))).
Proof. exact @renaming_same. Qed.
Print Assumptions C49_renaming.

(** The macro refuses both with the same error, and panics on both or neither. *)
Theorem C49_refused :
  forall (u : ident -> ident) (ds : list decl),
  renaming u ds ->
  forall (fuel : nat) (ord : list (nat * nat) -> list (nat * nat)),
  (forall e : gerr, build fuel ord ds = GErr e <-> build fuel ord (map (ren_decl u) ds) = GErr e) /\
  (build fuel ord ds = GPanic <-> build fuel ord (map (ren_decl u) ds) = GPanic) /\
  (build fuel ord ds = GFuel <-> build fuel ord (map (ren_decl u) ds) = GFuel).
Proof. exact @renaming_refused. Qed.
Print Assumptions C49_refused.

(** Without the condition on the error symbol: a non-terminal that is renamed to error makes the parser mend errors it reported before. *)
Theorem C49_error_refuted :
  exists (u : ident -> ident) (ds : list decl) (b1 b2 : built) (ks : list (token val)),
    (forall a b : ident, In a (flat_map mention ds) -> In b (flat_map mention ds) -> u a = u b -> a = b) /\
    (forall a : ident,
     In a (flat_map mention ds) ->
     is_terminal_ident (u a) = is_terminal_ident a /\
     is_nonterminal_ident (u a) = is_nonterminal_ident a) /\
    expands ds b1 /\
    usable ds b1 /\
    expands (map (ren_decl u) ds) b2 /\
    usable (map (ren_decl u) ds) b2 /\
    tokens_wf b1 ks /\
    tokens_wf b2 ks /\
    (exists (n : nat) (pp : parser (minor val) (list Syntax.code) val),
       api_run n (bt_tables b1) esem [] ks = RErr 88 pp) /\
    (exists (n : nat) (pp : parser (minor val) (list Syntax.code) val),
       api_run n (bt_tables b2) esem [] ks = ROk (VUnit, [77; 1]) pp).
Proof. exact @renaming_error_refuted. Qed.
Print Assumptions C49_error_refuted.

(** ** C50. The stack an input needs is the one its tree says *)

(** The limit stops a parse exactly if the parser without a limit would hold more entries. *)
Theorem C50_limit_met :
  forall (ds : list decl) (b : built),
  expands ds b ->
  forall (V X E : Type) (sm : sem V X E) (n : nat) (x : X) (ks : list (token V)),
  match unlimited_run b sm n x ks with
  | ROk _ pp | RErr _ pp =>
      (limit_of ds = 0 \/ tallest b pp <= limit_of ds ->
       api_run n (bt_tables b) sm x ks = unlimited_run b sm n x ks) /\
      (0 < limit_of ds < tallest b pp -> stopped_full ds sm (api_run n (bt_tables b) sm x ks))
  | _ => True
  end.
Proof. exact @limit_met. Qed.
Print Assumptions C50_limit_met.

(** Without precedences: the tree of a sentence decides whether it is accepted or overflows. *)
Theorem C50_stack_needed :
  forall (ds : list decl) (b : built),
  expands ds b ->
  forall (V X E : Type) (sm : sem V X E),
  usable ds b ->
  forall (s : ident) (ks : list (token V)) (x x' : X) (v : V) (T : dtree),
  plain ds ->
  types_ok ds ->
  tokens_wf b ks ->
  start_of ds = Some s ->
  meant ds sm eq s (reading b sm ks) x x' v T ->
  exists n : nat,
    forall n' : nat,
    n <= n' ->
    (limit_of ds = 0 \/ stack_for T <= limit_of ds ->
     exists pp : parser (minor V) X V,
       api_run n' (bt_tables b) sm x ks = ROk (root_value ds sm s v, x') pp /\
       Forall CleanFacts.peaceful (ps_log pp)) /\
    (0 < limit_of ds < stack_for T -> stopped_full ds sm (api_run n' (bt_tables b) sm x ks)).
Proof. exact @stack_needed. Qed.
Print Assumptions C50_stack_needed.

(** The same for operators, with the tree nested as declared. *)
Theorem C50_operators :
  forall (ds : list decl) (b : built),
  expands ds b ->
  forall (V X E : Type) (sm : sem V X E),
  usable ds b ->
  forall (s o : ident) (ks : list (token V)) (x x' : X) (v : V) (T : dtree),
  operators ds s o ->
  wildcard_of ds = None ->
  (forall (a : ident) (l : nat), assoc_of ds a = Some (l, ANone) -> fallback_of ds a = None) ->
  types_ok ds ->
  tokens_wf b ks ->
  meant ds sm eq s (reading b sm ks) x x' v T ->
  nested ds T ->
  exists n : nat,
    forall n' : nat,
    n <= n' ->
    (limit_of ds = 0 \/ stack_for T <= limit_of ds ->
     exists pp : parser (minor V) X V,
       api_run n' (bt_tables b) sm x ks = ROk (root_value ds sm s v, x') pp /\
       Forall CleanFacts.peaceful (ps_log pp)) /\
    (0 < limit_of ds < stack_for T -> stopped_full ds sm (api_run n' (bt_tables b) sm x ks)).
Proof. exact @stack_operators. Qed.
Print Assumptions C50_operators.

(** For every grammar: what the parser without a limit accepts has a tree that decides. *)
Theorem C50_accepted :
  forall (ds : list decl) (b : built),
  expands ds b ->
  forall (V X E : Type) (sm : sem V X E),
  usable ds b ->
  forall (n : nat) (x : X) (ks : list (token V)) (r : V) (x' : X) (pp : parser (minor V) X V),
  tokens_wf b ks ->
  unlimited_run b sm n x ks = ROk (r, x') pp ->
  ~ dropped pp ->
  exists (s : ident) (v : V) (T : dtree),
    start_of ds = Some s /\
    meant ds sm (taken ds) s (reading b sm ks) x x' v T /\
    r = root_value ds sm s v /\
    (limit_of ds = 0 \/ stack_for T <= limit_of ds -> api_run n (bt_tables b) sm x ks = ROk (r, x') pp) /\
    (0 < limit_of ds < stack_for T -> stopped_full ds sm (api_run n (bt_tables b) sm x ks)).
Proof. exact @stack_accepted. Qed.
Print Assumptions C50_accepted.

(** ** C51. Precedences decide conflicts and nothing else *)

(** Precedence lines and marks on rules, added to a grammar that is accepted without precedence lines after the tokens they name were mentioned, change nothing: the two parsers do the same at every call. *)
Theorem C51_same_parser :
  forall (ds ds' : list decl) (b : built),
  expands ds b ->
  marked [] ds ds' ->
  NoDup (ranked ds') ->
  exists b' : built,
    expands ds' b' /\ same_parser b b' /\ t_names (bt_tables b') = t_names (bt_tables b).
Proof. exact @marks_same. Qed.
Print Assumptions C51_same_parser.

(** Wherever the precedence lines stand: a grammar whose other lines are accepted is accepted with them, if they name only tokens that are mentioned elsewhere, and none twice. *)
Theorem C51_accepted_anywhere :
  forall (ds : list decl) (b0 : built),
  expands (bare ds) b0 ->
  (forall n : ident, In n (ranked ds) -> is_terminal_ident n = true /\ mentions (bare ds) n) ->
  NoDup (ranked ds) ->
  no_rivals (bare ds) ->
  no_self_fallback (bare ds) ->
  flat_decls (bare ds) ->
  elems_named (bare ds) -> classes_begin (bare ds) -> exists b : built, expands ds b.
Proof. exact @lines_accepted. Qed.
Print Assumptions C51_accepted_anywhere.

(** The two parsers return the same for every input that one of them accepts without dropping a token, unless the other runs into the stack limit. *)
Theorem C51_answers_anywhere :
  forall (ds : list decl) (b0 : built),
  expands (bare ds) b0 ->
  (forall n : ident, In n (ranked ds) -> is_terminal_ident n = true /\ mentions (bare ds) n) ->
  NoDup (ranked ds) ->
  no_rivals (bare ds) ->
  forall b : built,
  usable (bare ds) b0 ->
  expands ds b ->
  usable ds b ->
  types_ok (bare ds) ->
  wildcard_of (bare ds) = None ->
  (forall (a : ident) (l : nat), assoc_of ds a = Some (l, ANone) -> fallback_of ds a = None) ->
  forall (V X E : Type) (sm : sem V X E) (ks0 ks : list (token V)),
  tokens_wf b0 ks0 ->
  tokens_wf b ks ->
  reading b0 sm ks0 = reading b sm ks ->
  forall (x : X) (r : V) (x' : X),
  (answers b0 sm x ks0 r x' -> answers_or_overflows b sm x ks r x') /\
  (answers b sm x ks r x' -> answers_or_overflows b0 sm x ks0 r x').
Proof. exact @lines_answers. Qed.
Print Assumptions C51_answers_anywhere.

(** ** C52. Grammars that choose by the next token are never rejected for conflicts *)

(** Whatever precedences are declared, no conflict is reported *)
Theorem C52_no_conflicts :
  forall (ds : list decl) (fuel : nat) (ord : list (nat * nat) -> list (nat * nat)),
  chooses ds -> hash_order ord -> build fuel ord ds <> GErr EConflicts.
Proof. exact @choice_quiet. Qed.
Print Assumptions C52_no_conflicts.

(** and if every rule can be used, only other faults keep the grammar from being accepted *)
Theorem C52_accepted :
  forall ds : list decl,
  no_self_fallback ds ->
  elems_named ds ->
  classes_begin ds ->
  flat_decls ds ->
  chooses ds ->
  all_needed ds ->
  (exists b : built, expands ds b) <->
  (forall e : gerr, e <> EConflicts -> e <> ENotReduced -> ~ fault ds e).
Proof. exact @choice_accepted. Qed.
Print Assumptions C52_accepted.

(** ** C53. The shorthands of the documentation stand for what it says *)

(** A rule without a block, with one typed element, gives the same answers as the rule that binds the element and gives it back. *)
Theorem C53_block :
  forall (ds1 ds2 : list decl) (V X E : Type) (sm : sem V X E),
  Forall2 (handed ds1 (gives_back sm)) ds1 ds2 ->
  forall b1 b2 : built,
  expands ds1 b1 ->
  usable ds1 b1 ->
  expands ds2 b2 ->
  usable ds2 b2 ->
  wildcard_of ds1 = None ->
  (forall (a : ident) (l : nat), assoc_of ds1 a = Some (l, ANone) -> fallback_of ds1 a = None) ->
  types_ok ds1 ->
  types_ok ds2 ->
  forall ks1 ks2 : list (token V),
  tokens_wf b1 ks1 ->
  tokens_wf b2 ks2 ->
  reading b1 sm ks1 = reading b2 sm ks2 ->
  forall (x : X) (r : V) (x' : X),
  (answers b1 sm x ks1 r x' -> answers_or_overflows b2 sm x ks2 r x') /\
  (answers b2 sm x ks2 r x' -> answers_or_overflows b1 sm x ks1 r x').
Proof. exact @left_out_anyhow. Qed.
Print Assumptions C53_block.

(** The two lists are accepted or rejected alike. *)
Theorem C53_block_accepted :
  forall (ds1 ds2 : list decl) (K : nat -> Prop),
  Forall2 (handed ds1 K) ds1 ds2 ->
  no_self_fallback ds1 ->
  elems_named ds1 ->
  classes_begin ds1 ->
  flat_decls ds1 -> (exists b : built, expands ds1 b) <-> (exists b : built, expands ds2 b).
Proof. exact @left_out_accepted. Qed.
Print Assumptions C53_block_accepted.

(** [q?] gives the same answers as a nonterminal of type Option with the rules that the documentation shows for it. *)
Theorem C53_optional :
  forall (ds1 ds' : list decl) (q o al : ident) (cs cn : nat) (V X E : Type) (sm : sem V X E),
  Forall2 (unwrapped_decl q o) ds1 ds' ->
  ~ mentions ds1 o ->
  lower o ->
  q <> o ->
  (forall (v : V) (x : X), u_block sm cs [v] x = (x, inl (v_some sm v))) ->
  (forall x : X, u_block sm cn [] x = (x, inl (v_none sm))) ->
  forall b1 b2 : built,
  expands ds1 b1 ->
  usable ds1 b1 ->
  expands (ds' ++ opt_lines (or_unit (raw_type ds1 q)) q o al cs cn) b2 ->
  usable (ds' ++ opt_lines (or_unit (raw_type ds1 q)) q o al cs cn) b2 ->
  plain ds1 ->
  no_fallback ds1 ->
  types_ok ds1 ->
  types_ok (ds' ++ opt_lines (or_unit (raw_type ds1 q)) q o al cs cn) ->
  forall ks1 ks2 : list (token V),
  tokens_wf b1 ks1 ->
  tokens_wf b2 ks2 ->
  reading b1 sm ks1 = reading b2 sm ks2 ->
  forall (x : X) (r : V) (x' : X),
  (answers b1 sm x ks1 r x' -> answers_or_overflows b2 sm x ks2 r x') /\
  (answers b2 sm x ks2 r x' -> answers_or_overflows b1 sm x ks1 r x').
Proof. exact @optional_written_out. Qed.
Print Assumptions C53_optional.

(** If all occurrences of [q?] are written out so, the two lists are accepted or rejected alike. *)
Theorem C53_optional_accepted :
  forall (ds1 ds' : list decl) (q o al : ident) (cs cn : nat),
  Forall2 (unwrapped_decl q o) ds1 ds' ->
  ~ mentions ds1 o ->
  lower o ->
  q <> o ->
  (forall a : option string, ~ has_elem ds' ([q], true, a)) ->
  (exists a : option string, has_elem ds1 ([q], true, a)) ->
  plain ds1 ->
  no_self_fallback ds1 ->
  elems_named ds1 ->
  classes_begin ds1 ->
  flat_decls ds1 ->
  (exists b : built, expands ds1 b) <->
  (exists b : built, expands (ds' ++ opt_lines (or_unit (raw_type ds1 q)) q o al cs cn) b).
Proof. exact @optional_accepted_alike. Qed.
Print Assumptions C53_optional_accepted.

(** A rule with [A|B] gives the same answers as one rule for each of the tokens. *)
Theorem C53_alternatives :
  forall (l1 l2 : list decl) (l : ident) (pre post : list rhs_elem) (ns : list ident) 
    (o : bool) (al : option ident) (c : option nat) (p : option ident),
  2 <= List.length ns ->
  forall (b1 b2 : built) (V X E : Type) (sm : sem V X E),
  expands (l1 ++ DRule l (pre ++ (ns, o, al) :: post) c p :: l2) b1 ->
  usable (l1 ++ DRule l (pre ++ (ns, o, al) :: post) c p :: l2) b1 ->
  expands (l1 ++ rule_each l pre ns al post c p ++ l2) b2 ->
  usable (l1 ++ rule_each l pre ns al post c p ++ l2) b2 ->
  plain (l1 ++ DRule l (pre ++ (ns, o, al) :: post) c p :: l2) ->
  no_fallback (l1 ++ DRule l (pre ++ (ns, o, al) :: post) c p :: l2) ->
  types_ok (l1 ++ DRule l (pre ++ (ns, o, al) :: post) c p :: l2) ->
  types_ok (l1 ++ rule_each l pre ns al post c p ++ l2) ->
  forall ks1 ks2 : list (token V),
  tokens_wf b1 ks1 ->
  tokens_wf b2 ks2 ->
  reading b1 sm ks1 = reading b2 sm ks2 ->
  forall (x : X) (r : V) (x' : X),
  (answers b1 sm x ks1 r x' -> answers_or_overflows b2 sm x ks2 r x') /\
  (answers b2 sm x ks2 r x' -> answers_or_overflows b1 sm x ks1 r x').
Proof. exact @alternatives_written_out. Qed.
Print Assumptions C53_alternatives.

(** But it is not accepted whenever those rules are. *)
Theorem C53_shortcut_refuted :
  build 300 identity_order one_bar = GErr EConflicts /\
  (forall b : built, ~ expands one_bar b) /\ (exists b : built, expands no_bar b).
Proof. exact @alternatives_shortcut_refuted. Qed.
Print Assumptions C53_shortcut_refuted.

(** ** C54. Blocks, aliases, types and handlers do not influence how the input is parsed *)

(** A list that differs from an accepted one only in blocks and aliases is accepted, unless one of the three checks about blocks and aliases fails. *)
Theorem C54_accepted :
  forall ds1 ds2 : list decl,
  Forall2 reblocked ds1 ds2 ->
  forall b1 : built,
  expands ds1 b1 ->
  no_self_fallback ds1 ->
  elems_named ds1 ->
  classes_begin ds1 ->
  flat_decls ds1 ->
  (exists b2 : built, expands ds2 b2) <->
  ~ fault ds2 ETypedNoCode /\ ~ fault ds2 ECompoundAlias /\ ~ fault ds2 EWildAlias.
Proof. exact @blocks_accepted. Qed.
Print Assumptions C54_accepted.

(** It is rejected for nothing else, whatever the order of the hash map. *)
Theorem C54_refused :
  forall ds1 ds2 : list decl,
  Forall2 reblocked ds1 ds2 ->
  forall b1 : built,
  expands ds1 b1 ->
  flat_decls ds1 ->
  forall (fuel : nat) (ord : list (nat * nat) -> list (nat * nat)) (e : gerr),
  hash_order ord -> build fuel ord ds2 = GErr e -> about_blocks e.
Proof. exact @blocks_refused. Qed.
Print Assumptions C54_refused.

(** A list with the same syntax as an accepted one is accepted, unless a check that is not about the syntax fails. *)
Theorem C54_syntax_accepted :
  forall ds1 ds2 : list decl,
  skeleton ds2 = skeleton ds1 ->
  forall b1 : built,
  expands ds1 b1 ->
  flat_decls ds1 ->
  no_self_fallback ds1 ->
  elems_named ds1 ->
  classes_begin ds1 ->
  (exists b2 : built, expands ds2 b2) <-> (forall e : gerr, beside_syntax e -> ~ fault ds2 e).
Proof. exact @syntax_accepted. Qed.
Print Assumptions C54_syntax_accepted.

(** It is rejected for nothing else: no conflict, no lost rule, no error in precedences, classes or fallbacks. *)
Theorem C54_syntax_refused :
  forall ds1 ds2 : list decl,
  skeleton ds2 = skeleton ds1 ->
  forall b1 : built,
  expands ds1 b1 ->
  flat_decls ds1 ->
  forall (fuel : nat) (ord : list (nat * nat) -> list (nat * nat)) (e : gerr),
  hash_order ord -> build fuel ord ds2 = GErr e -> beside_syntax e.
Proof. exact @syntax_refused. Qed.
Print Assumptions C54_syntax_refused.

(** Lists that differ in no line of the syntax, but for blocks and aliases, say the same about the syntax. *)
Theorem C54_skeleton :
  forall ds1 ds2 : list decl, skeleton ds2 = skeleton ds1 -> same_syntax ds1 ds2.
Proof. exact @skeleton_syntax. Qed.
Print Assumptions C54_skeleton.

(** If two lists say the same about the syntax, in whatever lines, the two parsers read an input with the same tree: the second answers what the tree means under its own blocks and types. *)
Theorem C54_trees :
  forall (ds1 ds2 : list decl) (b1 b2 : built) (V1 X1 E1 V2 X2 E2 : Type) (sm1 : sem V1 X1 E1)
    (sm2 : sem V2 X2 E2),
  same_syntax ds1 ds2 ->
  expands ds1 b1 ->
  usable ds1 b1 ->
  expands ds2 b2 ->
  usable ds2 b2 ->
  wildcard_of ds1 = None ->
  (forall (a : ident) (l : nat), assoc_of ds1 a = Some (l, ANone) -> fallback_of ds1 a = None) ->
  types_ok ds2 ->
  forall (ks1 : list (token V1)) (ks2 : list (token V2)),
  tokens_wf b1 ks1 ->
  tokens_wf b2 ks2 ->
  map fst (reading b1 sm1 ks1) = map fst (reading b2 sm2 ks2) ->
  forall (x : X1) (r : V1) (x' : X1),
  answers b1 sm1 x ks1 r x' ->
  exists (s : ident) (v : V1) (T : dtree),
    start_of ds1 = Some s /\
    meant ds1 sm1 (taken ds1) s (reading b1 sm1 ks1) x x' v T /\
    r = root_value ds1 sm1 s v /\
    (forall (y y' : X2) (u : V2),
     meant ds2 sm2 (taken ds2) s (reading b2 sm2 ks2) y y' u T ->
     answers_or_overflows b2 sm2 y ks2 (root_value ds2 sm2 s u) y').
Proof. exact @syntax_trees. Qed.
Print Assumptions C54_trees.

(** With blocks that never fail, the second parser accepts everything that the first accepts. *)
Theorem C54_sentences :
  forall (ds1 ds2 : list decl) (b1 b2 : built) (V1 X1 E1 V2 X2 E2 : Type) (sm1 : sem V1 X1 E1)
    (sm2 : sem V2 X2 E2),
  same_syntax ds1 ds2 ->
  expands ds1 b1 ->
  usable ds1 b1 ->
  expands ds2 b2 ->
  usable ds2 b2 ->
  wildcard_of ds1 = None ->
  (forall (a : ident) (l : nat), assoc_of ds1 a = Some (l, ANone) -> fallback_of ds1 a = None) ->
  types_ok ds2 ->
  (forall (c : Syntax.code) (args : list V2) (x : X2),
   exists (x' : X2) (v : V2), u_block sm2 c args x = (x', inl v)) ->
  forall (ks1 : list (token V1)) (ks2 : list (token V2)),
  tokens_wf b1 ks1 ->
  tokens_wf b2 ks2 ->
  map fst (reading b1 sm1 ks1) = map fst (reading b2 sm2 ks2) ->
  forall (x : X1) (r : V1) (x' : X1) (y : X2),
  answers b1 sm1 x ks1 r x' -> exists (q : V2) (y' : X2), answers_or_overflows b2 sm2 y ks2 q y'.
Proof. exact @syntax_sentences. Qed.
Print Assumptions C54_sentences.
