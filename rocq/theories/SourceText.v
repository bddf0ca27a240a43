(** Reading the text of a pomelo! block into declarations: lib.rs of pomelo-impl,
    [impl Parse for Decls] and [impl Parse for Decl].

    Simplifications: the spacing of punctuation is left out ([::] is one token), groups without
    delimiters (left by macro_rules) do not occur, and all errors are the same.  What syn parses
    on its own (types, attributes, the enum, the struct, items, blocks, patterns) is a parameter. *)
From Verif Require Import Base Syntax.
Open Scope string_scope. Open Scope nat_scope. Open Scope list_scope.

(** proc_macro2 token trees.  [TKey] is a Rust keyword, which syn's [Ident] refuses; [TLit] is a
    literal, with the number that [LitInt] and [base10_parse::<usize>] get from it. *)
Inductive punct := PPercent | PSemi | PPath | PEq | PBar | PQuest | POther (s : string).
Inductive delim := Paren | Bracket | Brace.
Inductive tok := TIdent (s : ident) | TKey (s : ident) | TPunct (p : punct) | TLit (n : option nat) | TGroup (d : delim) (l : list tok).

(** The parsers of syn.  The first four take what they need from the front of a stream, the
    others a whole group: a group that is not used up makes the macro fail. *)
Record syn := mkSyn {
  s_attrs : list tok -> option (nat * list tok);          (* Attribute::parse_outer *)
  s_type : list tok -> option (ty * list tok);            (* Type *)
  s_enum : list tok -> option (nat * list string * list tok);   (* ItemEnum *)
  s_struct : list tok -> option (nat * list string * list tok); (* ItemStruct *)
  s_items : list tok -> option code;                      (* Items of %include *)
  s_block : list tok -> option code;                      (* Block *)
  s_pat : list tok -> option string }.                    (* Pat::parse_multi *)

Notation SEMI := (TPunct PSemi).

Section Read.
Context (sy : syn).

(** [input.parse::<Ident>()] *)
Definition p_ident (ts : list tok) : option (ident * list tok) :=
  match ts with TIdent s :: r => Some (s, r) | _ => None end.
(** [input.parse::<Token![;]>()] *)
Definition p_semi (ts : list tok) : option (list tok) :=
  match ts with SEMI :: r => Some r | _ => None end.
(** [if input.peek(Token![;]) { input.parse::<Token![;]>()?; }], lib.rs 108-110 *)
Definition skip_semi (ts : list tok) : list tok :=
  match ts with SEMI :: r => r | _ => ts end.
(** [while !input.peek(Token![;]) { toks.push(input.parse()?) }] and the semicolon, lib.rs 140-143 *)
Fixpoint p_idents (ts : list tok) : option (list ident * list tok) :=
  match ts with
  | SEMI :: r => Some ([], r)
  | TIdent s :: r => match p_idents r with Some (l, r') => Some (s :: l, r') | None => None end
  | _ => None
  end.
(** A value and the semicolon after it *)
Definition with_semi {A} (f : list tok -> option (A * list tok)) (d : A -> decl) (ts : list tok) : option (decl * list tok) :=
  match f ts with
  | Some (a, r) => match p_semi r with Some r' => Some (d a, r') | None => None end
  | None => None
  end.
(** A block and a semicolon or not, lib.rs 112-135 *)
Definition with_block (d : code -> decl) (ts : list tok) : option (decl * list tok) :=
  match ts with
  | TGroup Brace l :: r => match s_block sy l with Some c => Some (d c, skip_semi r) | None => None end
  | _ => None
  end.
(** lib.rs 82-92 *)
Definition p_type_decl (ts : list tok) : option (decl * list tok) :=
  match s_attrs sy ts with
  | Some (n, r) =>
      match p_ident r with
      | Some (id, SEMI :: r') => Some (DType n id None, r')
      | Some (id, r') => with_semi (s_type sy) (fun t => DType n id (Some t)) r'
      | None => None
      end
  | None => None
  end.
(** lib.rs 227-235 *)
Definition p_stack_size (ts : list tok) : option (decl * list tok) :=
  match ts with
  | TLit (Some n) :: SEMI :: r => Some (DStackSize n None, r)
  | TLit (Some n) :: r => with_semi (s_type sy) (fun t => DStackSize n (Some t)) r
  | _ => None
  end.
(** An identifier, then identifiers up to the semicolon, lib.rs 189-196 and 205-212 *)
Definition p_ident_idents (d : ident -> list ident -> decl) (ts : list tok) : option (decl * list tok) :=
  match p_ident ts with
  | Some (i, r) => match p_idents r with Some (l, r') => Some (d i l, r') | None => None end
  | None => None
  end.
Definition p_ids (d : list ident -> decl) (ts : list tok) : option (decl * list tok) :=
  match p_idents ts with Some (l, r) => Some (d l, r) | None => None end.

(** After the percent sign: the keyword chooses, lib.rs 79-249 *)
Definition p_directive (ts : list tok) : option (decl * list tok) :=
  match ts with
  | TKey k :: r => if k =? "type" then p_type_decl r else None
  | TIdent k :: r =>
      if k =? "module" then with_semi p_ident DModule r
      else if k =? "include" then
        match r with
        | TGroup Brace l :: r' => match s_items sy l with Some c => Some (DInclude c, skip_semi r') | None => None end
        | _ => None
        end
      else if k =? "syntax_error" then with_block DSyntaxError r
      else if k =? "parse_fail" then with_block DParseFail r
      else if k =? "stack_overflow" then with_block DStackOverflow r
      else if k =? "left" then p_ids (DAssoc ALeft) r
      else if k =? "right" then p_ids (DAssoc ARight) r
      else if k =? "nonassoc" then p_ids (DAssoc ANone) r
      else if k =? "default_type" then with_semi (s_type sy) DDefaultType r
      else if k =? "extra_argument" then with_semi (s_type sy) DExtraArgument r
      else if k =? "error" then with_semi (s_type sy) DError r
      else if k =? "start_symbol" then with_semi p_ident DStartSymbol r
      else if k =? "fallback" then p_ident_idents DFallback r
      else if k =? "wildcard" then with_semi p_ident DWildcard r
      else if k =? "token_class" then p_ident_idents DTokenClass r
      else if k =? "token" then with_semi (s_enum sy) (fun '(n, gs) => DToken n gs) r
      else if k =? "extra_token" then with_semi (s_type sy) DExtraToken r
      else if k =? "stack_size" then p_stack_size r
      else if k =? "verbose" then match p_semi r with Some r' => Some (DVerbose, r') | None => None end
      else if k =? "parser" then with_semi (s_struct sy) (fun '(n, gs) => DParser n gs) r
      else None
  | _ => None
  end%string.

(** [Punctuated::<Ident, Token![|]>::parse_separated_nonempty], lib.rs 265 *)
Fixpoint p_names (ts : list tok) : option (list ident * list tok) :=
  match ts with
  | TIdent s :: TPunct PBar :: r => match p_names r with Some (l, r') => Some (s :: l, r') | None => None end
  | TIdent s :: r => Some ([s], r)
  | _ => None
  end.
(** lib.rs 267-279 *)
Definition p_mark (ts : list tok) : bool * list tok :=
  match ts with TPunct PQuest :: r => (true, r) | _ => (false, ts) end.
Definition p_alias (ts : list tok) : option (option string * list tok) :=
  match ts with
  | TGroup Paren l :: r => match s_pat sy l with Some a => Some (Some a, r) | None => None end
  | _ => Some (None, ts)
  end.
(** One right-hand-side element, lib.rs 264-280 *)
Definition p_elem (ts : list tok) : option (rhs_elem * list tok) :=
  match p_names ts with
  | Some (l, r) =>
      let '(o, r1) := p_mark r in
      match p_alias r1 with Some (al, r2) => Some ((l, o, al), r2) | None => None end
  | None => None
  end.
(** The loop of lib.rs 258-281.  The fuel stands for the length of the stream, which every round
    shortens. *)
Fixpoint p_elems (n : nat) (ts : list tok) : option (list rhs_elem * list tok) :=
  match ts with
  | TIdent _ :: _ =>
      match n with
      | 0 => None
      | S n' =>
          match p_elem ts with
          | Some (e, r) => match p_elems n' r with Some (es, r') => Some (e :: es, r') | None => None end
          | None => None
          end
      end
  | _ => Some ([], ts)
  end.
(** lib.rs 282-288 *)
Definition p_prec (ts : list tok) : option (option ident * list tok) :=
  match ts with
  | TGroup Bracket [TIdent p] :: r => Some (Some p, r)
  | TGroup Bracket _ :: _ => None
  | _ => Some (None, ts)
  end.
(** lib.rs 289-293 *)
Definition p_action (ts : list tok) : option (option code * list tok) :=
  match ts with
  | TGroup Brace l :: r => match s_block sy l with Some c => Some (Some c, r) | None => None end
  | _ => Some (None, ts)
  end.
(** lib.rs 251-302 *)
Definition p_rule (ts : list tok) : option (decl * list tok) :=
  match ts with
  | TIdent lhs :: TPunct PPath :: TPunct PEq :: r =>
      match p_elems (List.length r) r with
      | Some (rhs, r1) =>
          match p_prec r1 with
          | Some (prec, r2) =>
              match p_action r2 with
              | Some (act, r3) => Some (DRule lhs rhs act prec, skip_semi r3)
              | None => None
              end
          | None => None
          end
      | None => None
      end
  | _ => None
  end.
(** lib.rs 75-305 *)
Definition p_decl (ts : list tok) : option (decl * list tok) :=
  match ts with TPunct PPercent :: r => p_directive r | _ => p_rule ts end.
(** lib.rs 42-50; fuel as above *)
Fixpoint p_decls (n : nat) (ts : list tok) : option (list decl) :=
  match ts with
  | [] => Some []
  | _ :: _ =>
      match n with
      | 0 => None
      | S n' =>
          match p_decl ts with
          | Some (d, r) => match p_decls n' r with Some ds => Some (d :: ds) | None => None end
          | None => None
          end
      end
  end.
Definition read (ts : list tok) : option (list decl) := p_decls (List.length ts) ts.
End Read.
