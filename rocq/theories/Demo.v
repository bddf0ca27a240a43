(** Small helpers to write concrete grammars, tokens and user code; used by the
    examples and the refutations. *)
From Coq Require Import DecimalString.
From Verif Require Import Base Syntax FrontEnd First States Actions Tables Runtime User.
Open Scope string_scope. Open Scope nat_scope. Open Scope list_scope.

(** A rule [l ::= rhs { block c }]; nothing is aliased. *)
Definition rl (l : ident) (rhs : list ident) (c : code) : decl :=
  DRule l (map (fun s => ([s], false, None)) rhs) (Some c) None.
(** The same with aliases on every symbol. *)
Definition ra (l : ident) (rhs : list ident) (c : code) : decl :=
  DRule l (map (fun s => ([s], false, Some "x")) rhs) (Some c) None.
(** The same with a precedence mark. *)
Definition rp (l : ident) (rhs : list ident) (c : code) (p : ident) : decl :=
  DRule l (map (fun s => ([s], false, None)) rhs) (Some c) (Some p).

Definition ida (l : list (nat * nat)) : list (nat * nat) := l.

(** Values: which block produced it, from which arguments. *)
Inductive val := VUnit | VNone | VSome (v : val) | VTok (n : nat) | VBlock (c : code) (args : list val).

(** User code: blocks record their call in the extra value and succeed; the handlers
    return the tags 77 (syntax error), 88 (parse failure), 99 (stack overflow). *)
Definition dsem : sem val (list code) nat :=
  mkSem VUnit VNone VSome (fun c l x => ((x ++ [c])%list, inl (VBlock c l)))
    (fun _ _ x => (x, inr 77)) (fun x => (x, 88)) (fun _ x => (x, 99)).
(** The same, but the syntax error handler returns Ok. *)
Definition esem : sem val (list code) nat :=
  mkSem VUnit VNone VSome (fun c l x => ((x ++ [c])%list, inl (VBlock c l)))
    (fun _ _ x => ((x ++ [77])%list, inl VUnit)) (fun x => (x, 88)) (fun _ x => (x, 99)).

Definition tables_of (x : gres built) : option tables :=
  match x with GOk b => Some (bt_tables b) | _ => None end.
Definition names_of (x : gres built) : list string :=
  match x with GOk b => map sy_name (g_syms (bt_grammar b)) | _ => [] end.

Inductive outcome := Accept_ (v : val) (x : list code) | Fail_ (e : nat) | Panic_ | Fuel_ | NoParser_.
(** Build and run on tokens given by number; every token carries [VTok n] if typed. *)
Definition demo (s : sem val (list code) nat) (ds : list decl) (toks : list nat) : outcome :=
  match build 300 ida ds with
  | GOk b =>
      let t := bt_tables b in
      match api_run 300 t s [] (map (fun i => (i, if typed t i then Some (VTok i) else None)) toks) with
      | ROk (v, x) _ => Accept_ v x
      | RErr e _ => Fail_ e
      | RPanic => Panic_
      | RFuel => Fuel_
      end
  | _ => NoParser_
  end.
