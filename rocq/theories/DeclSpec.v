(** What a list of declarations says, read off the declarations by name.  Nothing here
    refers to the generator. *)
From Verif Require Import Base Syntax.

Fixpoint first_of {A B} (f : A -> option B) (l : list A) : option B :=
  match l with
  | [] => None
  | a :: l' => match f a with Some b => Some b | None => first_of f l' end
  end.
Definition listed (n : ident) (l : list ident) : bool := existsb (String.eqb n) l.

(** Precedence of a token: the number of the %left/%right/%nonassoc line that lists it
    (a later line binds tighter) and the word used there. *)
Fixpoint assoc_from (k : nat) (ds : list decl) (n : ident) : option (nat * assoc) :=
  match ds with
  | [] => None
  | DAssoc a ids :: ds' => if listed n ids then Some (S k, a) else assoc_from (S k) ds' n
  | _ :: ds' => assoc_from k ds' n
  end.
Definition assoc_of (ds : list decl) (n : ident) : option (nat * assoc) := assoc_from 0 ds n.
Fixpoint assoc_lines (ds : list decl) : nat :=
  match ds with [] => 0 | DAssoc _ _ :: ds' => S (assoc_lines ds') | _ :: ds' => assoc_lines ds' end.

Definition type_of (ds : list decl) (n : ident) : option ty :=
  first_of (fun d => match d with DType _ m (Some t) => if String.eqb n m then Some t else None | _ => None end) ds.
Definition fallback_of (ds : list decl) (n : ident) : option ident :=
  first_of (fun d => match d with DFallback fb ids => if listed n ids then Some fb else None | _ => None end) ds.

(** The members of a token class: all %token_class lines for it, concatenated. *)
Definition class_line (n : ident) (d : decl) : option (list ident) :=
  match d with DTokenClass m ids => if String.eqb n m then Some ids else None | _ => None end.
Fixpoint class_of (ds : list decl) (n : ident) : option (list ident) :=
  match ds with
  | [] => None
  | d :: ds' =>
      match class_line n d, class_of ds' n with
      | None, o => o
      | Some l, None => Some l
      | Some l, Some l' => Some (l ++ l')
      end
  end.

Definition wildcard_of (ds : list decl) : option ident :=
  first_of (fun d => match d with DWildcard n => Some n | _ => None end) ds.
Definition start_line (ds : list decl) : option ident :=
  first_of (fun d => match d with DStartSymbol n => Some n | _ => None end) ds.
Definition default_type_of (ds : list decl) : option ty :=
  first_of (fun d => match d with DDefaultType t => Some t | _ => None end) ds.
Definition extra_token_of (ds : list decl) : option ty :=
  first_of (fun d => match d with DExtraToken t => Some t | _ => None end) ds.

(** The type of a named symbol before %default_type: the declared one, which %extra_token
    changes for the terminals. *)
Definition raw_type (ds : list decl) (n : string) : option ty :=
  match extra_token_of ds, class_of ds n with
  | Some et, None => if is_terminal_ident n then match type_of ds n with None => Some et | Some dt => Some (TyPair et dt) end else type_of ds n
  | _, _ => type_of ds n
  end.
Definition or_unit (o : option ty) : ty := match o with Some t => t | None => TyUnit end.


(** The rules, in order *)
Record drule := mkDr { d_lhs : ident; d_rhs : list rhs_elem; d_code : option code; d_prec : option ident }.
Fixpoint rules_in (ds : list decl) : list drule :=
  match ds with
  | [] => []
  | DRule l r c p :: ds' => mkDr l r c p :: rules_in ds'
  | _ :: ds' => rules_in ds'
  end.

(** The start symbol: %start_symbol, or else the left-hand side of the first rule. *)
Definition start_of (ds : list decl) : option ident :=
  match start_line ds with Some n => Some n | None => option_map d_lhs (hd_error (rules_in ds)) end.

(** ** The language of a list of declarations, over token names *)
Section Lang.
Context (ds : list decl).

(** The tokens a name, or an element of a right-hand side, stands for when it is a terminal:
    itself, or the members of a class. *)
Definition stands (a n : ident) : Prop :=
  is_terminal_ident n = true /\
  match class_of ds n with Some ms => In a ms | None => a = n end.

(** What a token read from the input may be taken for: itself, what it falls back to, or the
    wildcard. *)
Inductive falls (a : ident) : ident -> Prop :=
| fl_self : falls a a
| fl_step b c : falls a b -> fallback_of ds b = Some c -> falls a c.
Definition taken (a b : ident) : Prop := falls a b \/ wildcard_of ds = Some b.

(** [tk a b]: the token [a] of the input may be taken for the token [b] of the grammar: with
    [taken] above all a token may be taken for, with [eq] only the token itself. *)
Context (tk : ident -> ident -> Prop).

(** [says n w]: the name [n] produces the token string [w]; [elem e w] the same for one element
    of a right-hand side: a name, an optional name, or alternatives [A|B|...]; [elems] for a
    whole right-hand side. *)
Inductive says : ident -> list ident -> Prop :=
| sa_tok a b n : tk a b -> stands b n -> says n [a]
| sa_rule r w : In r (rules_in ds) -> elems (d_rhs r) w -> says (d_lhs r) w
with elem : rhs_elem -> list ident -> Prop :=
| el_one n al w : says n w -> elem ([n], false, al) w
| el_none n al : elem ([n], true, al) []
| el_some n al w : says n w -> elem ([n], true, al) w
| el_alt ns o al a b : 2 <= List.length ns -> tk a b -> In b ns -> elem (ns, o, al) [a]
with elems : list rhs_elem -> list ident -> Prop :=
| es_nil : elems [] []
| es_cons e es w1 w2 : elem e w1 -> elems es w2 -> elems (e :: es) (w1 ++ w2).
End Lang.

Scheme says_mind := Minimality for says Sort Prop
  with elem_mind := Minimality for elem Sort Prop
  with elems_mind := Minimality for elems Sort Prop.
Combined Scheme says_both from says_mind, elem_mind, elems_mind.
