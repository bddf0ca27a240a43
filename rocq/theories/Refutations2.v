(** Further witnesses that some of the properties, as a user would state them, do not hold
    of the code. *)
From Verif Require Import Base Syntax FrontEnd First States Actions Tables Runtime User Spec Demo Refutations.
Open Scope string_scope. Open Scope nat_scope. Open Scope list_scope.

(** ** A %nonassoc tie is reduced instead of rejected when the token has a fallback:
    %nonassoc Eq;  %left Plus;  %fallback Plus Eq;
    input ::= e Eq Stop;  e ::= e Eq e;  e ::= e Plus e;  e ::= Num;   on  Num Eq Num Eq Stop.
    The state after [e Eq e] reduces on Eq only, which is ignored when the default reduction is
    looked for (mod.rs 1204-1215), so the list keeps both the mark and the reduction. *)
Definition nf_ds : list decl :=
  [DAssoc ANone ["Eq"]; DAssoc ALeft ["Plus"]; DFallback "Plus" ["Eq"]; rl "input" ["e"; "Eq"; "Stop"] 1;
   rl "e" ["e"; "Eq"; "e"] 2; rl "e" ["e"; "Plus"; "e"] 3; rl "e" ["Num"] 4].
Definition nf := Eval vm_compute in get (build 300 ida nf_ds).
(** Eq = 1, Plus = 2, Stop = 3, Num = 4 *)
Theorem nonassoc_fallback_refuted :
  exists b s, build 300 ida nf_ds = GOk b
    /\ In (mkAct 1 Error) (s_actions (pstate (bt_acts b) s))
    /\ In (mkAct 1 (Reduce 1)) (s_actions (pstate (bt_acts b) s))
    /\ find_shift_action (bt_tables b) (state_num (bt_grammar b) (bt_comp b) s) 1
       = LAct (t_nstate (bt_tables b) + 1)
    /\ demo dsem nf_ds [4; 1; 4; 1; 3] = Accept_ VUnit [4; 4; 2; 1].
Proof.
  set (b := nf). exists b, 4. split; [vm_compute; reflexivity|].
  split; [vm_compute; tauto|]. split; [vm_compute; tauto|]. split; vm_compute; reflexivity.
Qed.

(** ** The %stack_overflow handler is not told the token when the stack overflows on a
    non-terminal:  %stack_size 2;  input ::= A x B;  x ::= ;   on  A B. *)
Definition ov_ds : list decl := [DStackSize 2 None; rl "input" ["A"; "x"; "B"] 1; rl "x" [] 2].
Definition ov := Eval vm_compute in get (build 300 ida ov_ds).
(** Answers 1 if it was given a token and 0 if not *)
Definition ov_sem : sem val (list code) nat :=
  mkSem VUnit VNone VSome (fun c l x => ((x ++ [c])%list, inl (VBlock c l)))
    (fun _ _ x => (x, inr 77)) (fun x => (x, 88)) (fun k x => (x, match k with Some _ => 1 | None => 0 end)).
Theorem overflow_token_refuted :
  exists b p q, build 300 ida ov_ds = GOk b
    /\ api_parse 300 (bt_tables b) ov_sem (new_parser (user_hooks (bt_tables b) ov_sem) []) (1, None) = ROk tt p
    /\ api_parse 300 (bt_tables b) ov_sem p (2, None) = RErr 0 q.
Proof. exists ov. eexists. eexists. split; [vm_compute; reflexivity|]. split; vm_compute; reflexivity. Qed.
