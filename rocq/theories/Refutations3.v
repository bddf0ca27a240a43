(** Parsers that never return (C06): what happens without each condition of [parse_returns].
    And error reports that follow each other (C20). *)
From Coq Require Import Permutation.
From Verif Require Import Base Syntax BaseFacts FrontEnd First States Actions Tables Runtime User Spec Demo Refutations DeclSpec TypeDecl Main Checks DeclMore Claims3 CycleSpec Claims10.
Open Scope string_scope. Open Scope nat_scope. Open Scope list_scope.

(** [d] and [f] derive nothing: d ::= f G;  f ::= d H.  On the token G, which no sentence
    contains, the parser pushes [z] and [y] in turn for ever: both reductions are in the tables
    because states of different left contexts are merged.  With the limit of 100 that is set by
    default it ends in a stack overflow, with %stack_size 0 it does not end. *)
Definition dead_ds : list decl :=
  [DStackSize 0 None; DRule "input" [(["P1"; "P2"; "P3"; "P4"; "P5"; "P6"; "P7"; "P8"], false, None)] (Some 1) None;
   rl "input" ["r1"] 1;
   rl "input" ["k1"; "B1"] 2; rl "input" ["k1b"; "B2"] 2; rl "input" ["k1c"; "B3"] 2;
   rl "input" ["q2"; "C1"] 2; rl "input" ["q2b"; "C2"] 2; rl "input" ["q2c"; "C3"] 2;
   rl "input" ["E"; "r2"] 1;
   rl "input" ["E"; "k2"; "D1"] 2; rl "input" ["E"; "k2b"; "D2"] 2; rl "input" ["E"; "k2c"; "D3"] 2;
   rl "input" ["E"; "q"; "F1"] 2; rl "input" ["E"; "qb"; "F2"] 2; rl "input" ["E"; "qc"; "F3"] 2;
   rl "r1" ["z"; "r2"] 3; rl "r1" ["k1"; "d"] 3; rl "r1" ["k1b"; "d"] 3; rl "r1" ["k1c"; "d"] 3;
   rl "r2" ["y"; "r1"] 3; rl "r2" ["k2"; "d"] 3; rl "r2" ["k2b"; "d"] 3; rl "r2" ["k2c"; "d"] 3;
   rl "k1" ["z"; "q"] 4; rl "k1b" ["z"; "qb"] 4; rl "k1c" ["z"; "qc"] 4;
   rl "k2" ["y"; "q2"] 4; rl "k2b" ["y"; "q2b"] 4; rl "k2c" ["y"; "q2c"] 4;
   rl "q" ["y"] 5; rl "qb" ["y"] 5; rl "qc" ["y"] 5;
   rl "q2" ["z"] 5; rl "q2b" ["z"] 5; rl "q2c" ["z"] 5;
   rl "z" [] 6; rl "y" [] 7; rl "d" ["f"; "G"] 8; rl "f" ["d"; "H"] 9].
Definition dead := Eval vm_compute in get (build 300 ida dead_ds).

(** G = 22, z = 40, y = 42; states 1 and 2 follow z and y *)
Lemma dead_loops n : forall p e rest, ps_status p = Normal -> ps_stack p = e :: rest -> e_state e <= 2 ->
  parse_token_2 n (bt_tables dead) (user_hooks (bt_tables dead) dsem) p 22 (0, VUnit) = RFuel.
Proof.
  set (t := bt_tables dead). set (h := user_hooks t dsem).
  assert (RR : forall r lhs q p e rest, ps_stack p = e :: rest -> 
     nth_error (t_rules t) r = Some (mkRtRule lhs [] (CUser q) 0) -> forall s, find_reduce_action t (e_state e) lhs = LAct s -> s < 54 ->
     yy_reduce t h p r = ROk tt (set_stack (log (set_extra (set_stack p (e :: rest)) (ps_extra p ++ [q])%list) (EvReduce r)) (mkEntry s lhs (0, VBlock q []) :: e :: rest))).
  { intros r lhs q p e rest Hs Hr s Hf Hl. unfold yy_reduce. rewrite Hr, Hs. cbn [rr_rhs List.length pop_n].
    unfold h at 1. cbn [h_reduce user_hooks]. unfold rule_reduce. rewrite (nth_error_nth _ _ _ Hr).
    cbn [match_args rr_rhs rr_code run_code dsem u_block rr_lhs e_state]. rewrite Hf.
    replace (t_nstate t) with 54 by (vm_compute; reflexivity). apply Nat.ltb_lt in Hl. cbn [rbind].
    rewrite Hl. unfold yy_shift. replace (t_limit t) with 0 by (vm_compute; reflexivity). reflexivity. }
  induction n as [|n IH]; intros p e rest Hst Hsk Hle; [reflexivity|]. cbn [parse_token_2]. rewrite Hst, Hsk.
  replace (t_nstate t) with 54 by (vm_compute; reflexivity). replace (t_nrule t) with 39 by (vm_compute; reflexivity).
  assert (Hc : e_state e = 0 \/ e_state e = 1 \/ e_state e = 2) by lia.
  destruct Hc as [E|[E|E]]; rewrite E.
  - replace (find_shift_action t 0 22) with (LAct 89) by (vm_compute; reflexivity). cbn [Nat.ltb Nat.leb Nat.add Nat.sub].
    rewrite (RR 35 40 6 p e rest Hsk) with (s := 1); [cbn [rbind]; eapply IH; [exact Hst|reflexivity|cbn; lia]|vm_compute; reflexivity|rewrite E; vm_compute; reflexivity|lia].
  - replace (find_shift_action t 1 22) with (LAct 90) by (vm_compute; reflexivity). cbn [Nat.ltb Nat.leb Nat.add Nat.sub].
    rewrite (RR 36 42 7 p e rest Hsk) with (s := 2); [cbn [rbind]; eapply IH; [exact Hst|reflexivity|cbn; lia]|vm_compute; reflexivity|rewrite E; vm_compute; reflexivity|lia].
  - replace (find_shift_action t 2 22) with (LAct 89) by (vm_compute; reflexivity). cbn [Nat.ltb Nat.leb Nat.add Nat.sub].
    rewrite (RR 35 40 6 p e rest Hsk) with (s := 1); [cbn [rbind]; eapply IH; [exact Hst|reflexivity|cbn; lia]|vm_compute; reflexivity|rewrite E; vm_compute; reflexivity|lia].
Qed.

Theorem dead_symbols_refuted :
  exists ds b toks, expands ds b /\ usable ds b /\ Main.plain ds /\ types_ok ds /\ tokens_wf (V := val) b toks /\ limit_of ds = 0 /\
    forall fuel, api_run fuel (bt_tables b) dsem [] toks = RFuel.
Proof.
  exists dead_ds, dead, [(22, None)]. splits.
  - exists 300, ida. split; [intros l; apply Permutation_refl|vm_compute; reflexivity].
  - apply fine_b_ok. vm_compute. reflexivity.
  - apply plain_b_ok. vm_compute. reflexivity.
  - apply types_b_ok. vm_compute. reflexivity.
  - apply tokens_wf_b_ok. vm_compute. reflexivity.
  - reflexivity.
  - intros fuel. unfold api_run, run. cbn [map parse_all]. unfold parse_token. cbn [ps_status new_parser].
    change (token_value (bt_tables dead) dsem (22, None)) with (22, (0, VUnit)). cbn [fst snd].
    erewrite dead_loops; [reflexivity|reflexivity|reflexivity|cbn; lia].
Qed.

(** ** Hidden left recursion without a limit *)
(** Every name says something and no name turns into itself, but [a] begins with itself behind
    the empty [b], and the rule of [b] binds tighter than the token Y:
    input ::= a X;  a ::= b a;  a ::= Y;  b ::= [P].  On Y the parser pushes [b] for ever. *)
Definition hidden_ds : list decl :=
  [DStackSize 0 None; DAssoc ALeft ["Y"]; DAssoc ALeft ["P"];
   DRule "input" [(["P1"; "P2"; "P3"; "P4"; "P5"; "P6"; "P7"; "P8"], false, None)] (Some 1) None;
   rl "input" ["a"; "X"] 2; rl "a" ["b"; "a"] 3; rl "a" ["Y"] 4; rp "b" [] 5 "P"].
Definition hidden := Eval vm_compute in get (build 300 ida hidden_ds).

(** Y = 1, b = 15; state 1 follows b *)
Lemma hidden_loops n : forall p e rest, ps_status p = Normal -> ps_stack p = e :: rest -> e_state e <= 1 ->
  parse_token_2 n (bt_tables hidden) (user_hooks (bt_tables hidden) dsem) p 1 (0, VUnit) = RFuel.
Proof.
  set (t := bt_tables hidden). set (h := user_hooks t dsem).
  induction n as [|n IH]; intros p e rest Hst Hsk Hle; [reflexivity|]. cbn [parse_token_2]. rewrite Hst, Hsk.
  replace (t_nstate t) with 7 by (vm_compute; reflexivity). replace (t_nrule t) with 5 by (vm_compute; reflexivity).
  replace (find_shift_action t (e_state e) 1) with (LAct 11)
    by (assert (Hc : e_state e = 0 \/ e_state e = 1) by lia; destruct Hc as [E|E]; rewrite E; vm_compute; reflexivity).
  cbn [Nat.ltb Nat.leb Nat.add Nat.sub].
  assert (RR : yy_reduce t h p 4 = ROk tt (set_stack (log (set_extra (set_stack p (e :: rest)) (ps_extra p ++ [5])%list) (EvReduce 4)) (mkEntry 1 15 (0, VBlock 5 []) :: e :: rest))).
  { unfold yy_reduce. replace (nth_error (t_rules t) 4) with (Some (mkRtRule 15 [] (CUser 5) 0)) by (vm_compute; reflexivity).
    rewrite Hsk. cbn [rr_rhs List.length pop_n]. unfold h at 1. cbn [h_reduce user_hooks]. unfold rule_reduce.
    replace (nth 4 (t_rules t) dummy_rt) with (mkRtRule 15 [] (CUser 5) 0) by (vm_compute; reflexivity).
    cbn [match_args rr_rhs rr_code run_code dsem u_block rr_lhs e_state].
    replace (find_reduce_action t (e_state e) 15) with (LAct 1)
      by (assert (Hc : e_state e = 0 \/ e_state e = 1) by lia; destruct Hc as [E|E]; rewrite E; vm_compute; reflexivity).
    replace (t_nstate t) with 7 by (vm_compute; reflexivity). cbn [Nat.ltb Nat.leb rbind].
    unfold yy_shift. replace (t_limit t) with 0 by (vm_compute; reflexivity). reflexivity. }
  rewrite RR. cbn [rbind]. eapply IH; [exact Hst|reflexivity|cbn; lia].
Qed.

Theorem hidden_recursion_refuted :
  exists ds b toks, expands ds b /\ usable ds b /\ acyclic ds /\ all_say ds /\ types_ok ds /\ tokens_wf (V := val) b toks /\ limit_of ds = 0 /\
    forall fuel, api_run fuel (bt_tables b) dsem [] toks = RFuel.
Proof.
  exists hidden_ds, hidden, [(1, None)]. splits.
  - exists 300, ida. split; [intros l; apply Permutation_refl|vm_compute; reflexivity].
  - apply fine_b_ok. vm_compute. reflexivity.
  - apply (acyclic_b_ok _ (fun n => if (n =? "input")%string then 2 else if (n =? "a")%string then 1 else 0)). vm_compute. reflexivity.
  - apply (all_say_b_ok 9). vm_compute. reflexivity.
  - apply types_b_ok. vm_compute. reflexivity.
  - apply tokens_wf_b_ok. vm_compute. reflexivity.
  - reflexivity.
  - intros fuel. unfold api_run, run. cbn [map parse_all]. unfold parse_token. cbn [ps_status new_parser].
    change (token_value (bt_tables hidden) dsem (1, None)) with (1, (0, VUnit)). cbn [fst snd].
    erewrite hidden_loops; [reflexivity|reflexivity|reflexivity|cbn; lia].
Qed.

(** ** A cycle *)
(** The grammar of Refutations.v in which [x] turns into [x], with the default limit: the stack
    does not grow, so the limit does not help. *)
Theorem cycle_refuted :
  exists ds b toks, expands ds b /\ usable ds b /\ no_hidden ds /\ all_say ds /\ types_ok ds /\ tokens_wf (V := val) b toks /\ limit_of ds = 100 /\
    forall fuel, api_run fuel (bt_tables b) dsem [] toks = RFuel.
Proof.
  exists cyc_ds, cyc, [(4, None); (5, None); (1, None)]. splits.
  - exists 300, ida. split; [intros l; apply Permutation_refl|apply cyc_loops].
  - apply fine_b_ok. vm_compute. reflexivity.
  - apply (no_hidden_b_ok _ (fun n => if (n =? "input")%string then 2 else if (n =? "y")%string then 1 else 0)). vm_compute. reflexivity.
  - apply (all_say_b_ok 9). vm_compute. reflexivity.
  - apply types_b_ok. vm_compute. reflexivity.
  - apply tokens_wf_b_ok. vm_compute. reflexivity.
  - reflexivity.
  - apply cyc_loops.
Qed.

(** ** C20 with the error symbol *)
(** On A A A A Semi the handler runs for the second, third and fourth token although nothing is
    shifted in between: [s ::= error] is reduced before the next token is found to be wrong, and
    with an error symbol in the grammar the counter is not looked at.  (Semi = 1, A = 2.) *)
Theorem no_silence_refuted :
  exists ds b ks p v, expands ds b /\ usable ds b /\ types_ok ds /\ tokens_wf b ks /\ api_run 300 (bt_tables b) esem [] ks = ROk v p /\
    exists l1 a l2 a' l3, ps_log p = l1 ++ EvSyntaxError a :: l2 ++ EvSyntaxError a' :: l3 /\ Forall (fun e => forall c, e <> EvShift c) l2.
Proof.
  exists rec_ds, rec_b, [(2, None); (2, None); (2, None); (2, None); (1, None)]. do 2 eexists. splits.
  - exists 300, ida. split; [intros l; apply Permutation_refl|vm_compute; reflexivity].
  - apply fine_b_ok. vm_compute. reflexivity.
  - apply types_b_ok. vm_compute. reflexivity.
  - apply tokens_wf_b_ok. vm_compute. reflexivity.
  - vm_compute. reflexivity.
  - cbn [ps_log]. match goal with |- context [?l = _] => exists (firstn 7 l), 2, (firstn 4 (skipn 8 l)), 2, (skipn 13 l) end.
    split; [vm_compute; reflexivity|]. vm_compute. repeat constructor; discriminate.
Qed.
