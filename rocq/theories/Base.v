(** Shared vocabulary of the model: results of the generator, list updates,
    the stable sort, sets as lists.

    Every definition of the model cites the file and lines of /repo it mirrors;
    "mod.rs" is always pomelo-impl/src/parser/mod.rs. *)
From Coq Require Export List Arith ZArith Lia Bool String Ascii.
Export ListNotations.
#[export] Set Warnings "-notation-overridden".

Open Scope nat_scope.
Open Scope list_scope.

(** Which [syn::Error] the generator returns (mod.rs passim, the message text). *)
Inductive gerr :=
| EAlreadySyntaxError | EAlreadyParseFail | EAlreadyStackOverflow
| EAttrs                (* Non terminal symbol cannot have attributes *)
| EBadIdent             (* Symbol must start with uppercase or lowercase letter *)
| ETypeDup              (* Symbol type already defined *)
| EPrecNonTerm          (* Precedence cannot be assigned to a non-terminal *)
| EPrecDup              (* Symbol has already been given a precedence *)
| EDefaultTypeDup | EExtraArgDup | EErrorTypeDup
| EStartDup | EStartTerm
| EFallbackIds | EFallbackTok | EFallbackLoop | EFallbackDup
| EWildDup | EWildTok
| EClassTok | EClassIds
| ETokenDup | EParserDup | EExtraTokenDup | EStackSizeDup
| ELhs | ECompound | EPrecSym
| ENoRules              (* Grammar must have some rules *)
| ETypedNoCode          (* This rule has a typed LHS but no code to assign it *)
| EStartRhs             (* start symbol on the RHS of a rule *)
| ENtNoRules            (* Nonterminal has no rules *)
| ENotReduced           (* This rule cannot be reduced *)
| EConflicts            (* Parsing conflicts *)
| EWildType | ETokenNotEmpty | EParserNotEmpty | EGenerics
| EFallbackType | ECompoundAlias | EWildAlias.

(** Outcome of a generator function.  [GPanic]: the Rust code panics.
    [GFuel]: the fuel given to the model's unbounded loops ran out; it is not a
    result of the Rust code (see the termination theorems). *)
Inductive gres (A : Type) :=
| GOk (a : A) | GErr (e : gerr) | GPanic | GFuel.
Arguments GOk {A} a. Arguments GErr {A} e. Arguments GPanic {A}. Arguments GFuel {A}.

Definition gbind {A B} (x : gres A) (f : A -> gres B) : gres B :=
  match x with GOk a => f a | GErr e => GErr e | GPanic => GPanic | GFuel => GFuel end.
Notation "x <-! e1 ; e2" := (gbind e1 (fun x => e2))
  (at level 61, e1 at next level, right associativity).
Notation "' p <-! e1 ; e2" := (gbind e1 (fun p => e2))
  (at level 61, p pattern, e1 at next level, right associativity).

(** Left fold in the result monad: a Rust [for] loop with [?] in its body. *)
Fixpoint gfold {A S} (f : S -> A -> gres S) (l : list A) (s : S) : gres S :=
  match l with
  | [] => GOk s
  | a :: l' => s' <-! f s a ; gfold f l' s'
  end.

(** In-place update of one element of a [Vec]/arena (vecref.rs get_mut). *)
Fixpoint upd {A} (l : list A) (i : nat) (f : A -> A) : list A :=
  match l, i with
  | [], _ => []
  | a :: l', 0 => f a :: l'
  | a :: l', S i' => a :: upd l' i' f
  end.

(** Rust's [slice::sort_by] is a stable sort that only asks whether the
    comparison returned [Less]; [less a b] is that question.  Insertion sort is
    a stable sort, so for a strict weak order it yields the same list. *)
Fixpoint sinsert {A} (less : A -> A -> bool) (x : A) (l : list A) : list A :=
  match l with
  | [] => [x]
  | y :: l' => if less y x then y :: sinsert less x l' else x :: y :: l'
  end.
Fixpoint ssort {A} (less : A -> A -> bool) (l : list A) : list A :=
  match l with
  | [] => []
  | x :: l' => sinsert less x (ssort less l')
  end.

(** Index of the first element satisfying [f] ([Iterator::position]). *)
Fixpoint position {A} (f : A -> bool) (l : list A) : option nat :=
  match l with
  | [] => None
  | a :: l' => if f a then Some 0 else option_map S (position f l')
  end.

(** Index of the last element satisfying [f] ([Iterator::rposition]). *)
Fixpoint rposition {A} (f : A -> bool) (l : list A) : option nat :=
  match l with
  | [] => None
  | a :: l' => match rposition f l' with
               | Some i => Some (S i)
               | None => if f a then Some 0 else None
               end
  end.

(** A [BTreeSet<usize>] as a duplicate-free list; the code only uses
    membership, insertion and [len], never the iteration order of these sets
    except for [extend], where the order cannot be observed. *)
Definition smem (x : nat) (s : list nat) : bool := existsb (Nat.eqb x) s.
Definition sadd (x : nat) (s : list nat) : list nat := if smem x s then s else s ++ [x].
Definition sunion (s t : list nat) : list nat := fold_left (fun s x => sadd x s) t s.

Definition opt_eqb {A} (eqb : A -> A -> bool) (a b : option A) : bool :=
  match a, b with
  | Some x, Some y => eqb x y
  | None, None => true
  | _, _ => false
  end.
