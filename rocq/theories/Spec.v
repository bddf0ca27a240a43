(** The specification the theorems are stated against: derivation trees, what a
    token may match, values of trees, nullability, FIRST, and canonical LR(1) items.
    Nothing here refers to the generator's algorithms; the only shared data are the
    records [grammar] (symbols and rules) and [hooks] (user code). *)
From Verif Require Import Base Syntax FrontEnd Runtime.

(** ** Symbols *)
Definition kind_at (g : grammar) (X : nat) : option kind :=
  option_map sy_kind (nth_error (g_syms g) X).

Definition is_term (g : grammar) (a : nat) : Prop := kind_at g a = Some KTerm.

(** Terminal [a] is the symbol [X], or is listed in the token class / compound [X]. *)
Definition member (g : grammar) (a X : nat) : Prop :=
  (X = a /\ is_term g a) \/ exists ms, kind_at g X = Some (KMulti ms) /\ In a ms.

(** [b] is [a], or what [a] becomes after any number of %fallback steps. *)
Inductive falls_to (g : grammar) (a : nat) : nat -> Prop :=
| falls_refl : falls_to g a a
| falls_step b s c : falls_to g a b -> nth_error (g_syms g) b = Some s -> sy_fb s = Some c ->
    falls_to g a c.

(** What an input token may stand for on a right-hand side. *)
Definition tok_match (g : grammar) (a X : nat) : Prop :=
  (exists b, falls_to g a b /\ member g b X) \/ (exists w, g_wild g = Some w /\ member g w X).

(** ** Derivation trees *)
Section Trees.
Context {M : Type}.

(** A leaf is an input token with its value; a node is the number of a rule. *)
Inductive tree := TTok (a : nat) (m : M) | TNode (r : nat) (ts : list tree).

Fixpoint yield (t : tree) : list (nat * M) :=
  match t with
  | TTok a m => [(a, m)]
  | TNode _ ts => flat_map yield ts
  end.

(** [derives g mt X t]: [t] is a tree for the symbol [X], where [mt a Y] says which
    tokens may stand for [Y]. *)
Inductive derives (g : grammar) (mt : nat -> nat -> Prop) : nat -> tree -> Prop :=
| d_tok a m X : mt a X -> derives g mt X (TTok a m)
| d_node r ru ts : nth_error (g_rules g) r = Some ru ->
    derives_all g mt (map fst (r_rhs ru)) ts ->
    derives g mt (r_lhs ru) (TNode r ts)
with derives_all (g : grammar) (mt : nat -> nat -> Prop) : list nat -> list tree -> Prop :=
| d_nil : derives_all g mt [] []
| d_cons X t Xs ts : derives g mt X t -> derives_all g mt Xs ts ->
    derives_all g mt (X :: Xs) (t :: ts).
End Trees.
Arguments tree : clear implicits.

Scheme derives_mind := Minimality for derives Sort Prop
  with derives_all_mind := Minimality for derives_all Sort Prop.
Combined Scheme derives_both from derives_mind, derives_all_mind.

(** [ts] is a sentence of the grammar, with tree [t]. *)
Definition sentence {M} (g : grammar) (t : tree M) (ts : list (nat * M)) : Prop :=
  derives g (tok_match g) (g_start g) t /\ yield t = ts.

(** ** The value of a tree: every block run once, children before parents, left to
    right, threading the extra value; the first failing block ends the evaluation. *)
Inductive evres (M X E : Type) := EvOk (x : X) (v : M) | EvErr (x : X) (e : E) | EvPanic.
Arguments EvOk {M X E} x v. Arguments EvErr {M X E} x e. Arguments EvPanic {M X E}.

Section Eval.
Context {M X E R : Type} (h : hooks M X E R).
Fixpoint eval (t : tree M) (x : X) : evres M X E :=
  match t with
  | TTok _ m => EvOk x m
  | TNode r ts =>
      (fix go (ts : list (tree M)) (vs : list M) (x : X) : evres M X E :=
         match ts with
         | [] => match h_reduce h r (rev vs) x with
                 | None => EvPanic
                 | Some (x', inl v) => EvOk x' v
                 | Some (x', inr e) => EvErr x' e
                 end
         | t :: ts' => match eval t x with
                       | EvOk x' v => go ts' (v :: vs) x'
                       | EvErr x' e => EvErr x' e
                       | EvPanic => EvPanic
                       end
         end) ts [] x
  end.
End Eval.

(** ** Nullable symbols and FIRST sets, by derivation *)
Inductive nullable (g : grammar) : nat -> Prop :=
| n_rule r ru : nth_error (g_rules g) r = Some ru ->
    nullable_all g (map fst (r_rhs ru)) -> nullable g (r_lhs ru)
with nullable_all (g : grammar) : list nat -> Prop :=
| n_nil : nullable_all g []
| n_cons X Xs : nullable g X -> nullable_all g Xs -> nullable_all g (X :: Xs).

(** The terminal [a] can begin what the symbol / the string of symbols derives. *)
Inductive first (g : grammar) (a : nat) : nat -> Prop :=
| f_term X : member g a X -> first g a X
| f_rule r ru : nth_error (g_rules g) r = Some ru -> first_all g a (map fst (r_rhs ru)) ->
    first g a (r_lhs ru)
with first_all (g : grammar) (a : nat) : list nat -> Prop :=
| f_here X Xs : first g a X -> first_all g a (X :: Xs)
| f_skip X Xs : nullable g X -> first_all g a Xs -> first_all g a (X :: Xs).

Scheme nullable_mind := Minimality for nullable Sort Prop
  with nullable_all_mind := Minimality for nullable_all Sort Prop.
Combined Scheme nullable_both from nullable_mind, nullable_all_mind.
Scheme first_mind := Minimality for first Sort Prop
  with first_all_mind := Minimality for first_all Sort Prop.
Combined Scheme first_both from first_mind, first_all_mind.

(** ** LR(0) and LR(1) items valid for a string of symbols [gamma]

    [(r, d)] is rule [r] with the dot before position [d].  A lookahead comes from
    what can follow in the enclosing rule, or is inherited when that can be empty;
    0 is the end of the input. *)
Inductive lr0 (g : grammar) : list nat -> nat -> nat -> Prop :=
| lr0_start r ru : nth_error (g_rules g) r = Some ru -> r_lhs ru = g_start g -> lr0 g [] r 0
| lr0_shift gamma r ru d X al : lr0 g gamma r d -> nth_error (g_rules g) r = Some ru ->
    nth_error (r_rhs ru) d = Some (X, al) -> lr0 g (gamma ++ [X]) r (S d)
| lr0_closure gamma r ru d X al q qu : lr0 g gamma r d ->
    nth_error (g_rules g) r = Some ru -> nth_error (r_rhs ru) d = Some (X, al) ->
    nth_error (g_rules g) q = Some qu -> r_lhs qu = X -> lr0 g gamma q 0.

Inductive lr1 (g : grammar) : list nat -> nat -> nat -> nat -> Prop :=
| lr1_start r ru : nth_error (g_rules g) r = Some ru -> r_lhs ru = g_start g ->
    lr1 g [] r 0 0
| lr1_shift gamma r ru d b X al : lr1 g gamma r d b -> nth_error (g_rules g) r = Some ru ->
    nth_error (r_rhs ru) d = Some (X, al) -> lr1 g (gamma ++ [X]) r (S d) b
| lr1_first gamma r ru d X al q qu b : lr0 g gamma r d ->
    nth_error (g_rules g) r = Some ru -> nth_error (r_rhs ru) d = Some (X, al) ->
    nth_error (g_rules g) q = Some qu -> r_lhs qu = X ->
    first_all g b (map fst (skipn (S d) (r_rhs ru))) -> lr1 g gamma q 0 b
| lr1_null gamma r ru d X al q qu b : lr1 g gamma r d b ->
    nth_error (g_rules g) r = Some ru -> nth_error (r_rhs ru) d = Some (X, al) ->
    nth_error (g_rules g) q = Some qu -> r_lhs qu = X ->
    nullable_all g (map fst (skipn (S d) (r_rhs ru))) -> lr1 g gamma q 0 b.
