(** The declarations a pomelo! grammar consists of, after parsing by syn. *)
From Verif Require Import Base.

(** Identifiers are strings.  [is_terminal_ident]/[is_nonterminal_ident]:
    mod.rs 512-518 look only at the first character.  A Rust identifier is
    never empty, so the [unwrap] there cannot fail. *)
Definition ident := string.

Definition first_in (lo hi : nat) (s : ident) : bool :=
  match s with
  | EmptyString => false
  | String c _ => (lo <=? nat_of_ascii c) && (nat_of_ascii c <=? hi)
  end.
Definition is_terminal_ident (s : ident) : bool := first_in 65 90 s.
Definition is_nonterminal_ident (s : ident) : bool := first_in 97 122 s.

(** Rust types: only equality of types and the two constructions the generator
    itself performs (a pair, mod.rs 645; Option, mod.rs 663) matter. *)
Inductive ty := TyName (s : string) | TyUnit | TyPair (a b : ty) | TyOption (a : ty).

Fixpoint ty_eqb (a b : ty) : bool :=
  match a, b with
  | TyName s, TyName t => String.eqb s t
  | TyUnit, TyUnit => true
  | TyPair a1 a2, TyPair b1 b2 => ty_eqb a1 b1 && ty_eqb a2 b2
  | TyOption a, TyOption b => ty_eqb a b
  | _, _ => false
  end.

(** decl.rs 3-8 *)
Inductive assoc := ALeft | ARight | ANone.

(** A user's Rust block is opaque: it is a tag, interpreted by the user
    semantics the runtime is parameterised by. *)
Definition code := nat.

(** One right-hand-side element: the names (more than one is a compound
    A|B), the '?' mark and the alias pattern (decl.rs 33). *)
Definition rhs_elem := (list ident * bool * option string)%type.

(** decl.rs 11-37.  [DInclude], [DModule], [DVerbose] only affect emitted text
    that no property here talks about; they are kept so that a declaration list is
    complete.  The token enum and parser struct are reduced to their number of
    variants/fields and their generic parameters. *)
Inductive decl :=
| DModule (id : ident)
| DInclude (c : code)
| DSyntaxError (c : code)
| DParseFail (c : code)
| DStackOverflow (c : code)
| DType (nattrs : nat) (id : ident) (t : option ty)
| DAssoc (a : assoc) (ids : list ident)
| DDefaultType (t : ty)
| DExtraArgument (t : ty)
| DError (t : ty)
| DStartSymbol (id : ident)
| DFallback (fb : ident) (ids : list ident)
| DWildcard (id : ident)
| DTokenClass (tk : ident) (ids : list ident)
| DToken (nvariants : nat) (generics : list string)
| DParser (nfields : nat) (generics : list string)
| DExtraToken (t : ty)
| DStackSize (limit : nat) (t : option ty)
| DVerbose
| DRule (lhs : ident) (rhs : list rhs_elem) (action : option code) (prec : option ident).
