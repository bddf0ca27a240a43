(** Names that come back to themselves without a token, read off the declarations (C06). *)
From Verif Require Import Base Syntax DeclSpec.

Section Cycles.
Context (ds : list decl).

(** The elements may be empty *)
Definition empty (es : list rhs_elem) : Prop := elems ds eq es [].

(** [m] has a rule in which [n] (or [n?]) stands behind elements that may be empty. *)
Definition has (m : ident) (front : list rhs_elem) (n : ident) (rear : list rhs_elem) : Prop :=
  exists r o al, In r (rules_in ds) /\ d_lhs r = m /\ d_rhs r = front ++ ([n], o, al) :: rear /\ empty front.

(** [m] can be just [n]: by rules that begin with the name and whose rest may be empty. *)
Inductive turns : ident -> ident -> Prop :=
| tu_rule m n rear : has m [] n rear -> empty rear -> turns m n
| tu_trans m n k : turns m n -> turns n k -> turns m k.
Definition acyclic : Prop := forall n, ~ turns n n.

(** [m] can begin with [n]; the mark says that elements that may be empty stand before it. *)
Inductive begins : bool -> ident -> ident -> Prop :=
| be_rule m front n rear : has m front n rear -> begins (match front with [] => false | _ => true end) m n
| be_trans f f' m n k : begins f m n -> begins f' n k -> begins (f || f') m k.
(** No hidden left recursion: no name begins with itself behind something that may be empty. *)
Definition no_hidden : Prop := forall n, ~ begins true n n.
End Cycles.
