(** Derivation trees together with the value they have, where a subtree is in a tree, and what
    the precedences say about two ways of going on.  Only declarations are used. *)
From Verif Require Import Base Syntax FrontEnd DeclSpec LangFacts User TreeSpec MeanSpec.
Open Scope string_scope. Open Scope nat_scope. Open Scope list_scope.

Section Meant.
Context (ds : list decl) {V X E : Type} (sm : sem V X E).
Context (tk : ident -> ident -> Prop).

(** [means] of MeanSpec.v with the tree: a leaf is the token of the input, a node the position
    of its rule in the macro input. *)
Inductive meant : ident -> list (ident * V) -> X -> X -> V -> dtree -> Prop :=
| mt_tok a v b n x : tk a b -> stands ds b n -> meant n [(a, v)] x x v (LTok a)
| mt_rule i d w vs v x x1 x2 ts : nth_error (rules_in ds) i = Some d -> meant_all (d_rhs d) w x x1 vs ts -> result ds sm d vs x1 = Some (x2, inl v) ->
    meant (d_lhs d) w x x2 v (LRule i ts)
with meant_elem : rhs_elem -> list (ident * V) -> X -> X -> V -> dtree -> Prop :=
| mt_one n al w x x' v t : meant n w x x' v t -> meant_elem ([n], false, al) w x x' v t
| mt_none n al x : meant_elem ([n], true, al) [] x x (v_none sm) LNone
| mt_some n al w x x' v t : meant n w x x' v t -> meant_elem ([n], true, al) w x x' (v_some sm v) (LSome t)
| mt_alt ns o al a v b x : 2 <= List.length ns -> tk a b -> In b ns -> meant_elem (ns, o, al) [(a, v)] x x v (LTok a)
with meant_all : list rhs_elem -> list (ident * V) -> X -> X -> list V -> list dtree -> Prop :=
| mt_nil x : meant_all [] [] x x [] []
| mt_cons e es w1 w2 x x1 x2 v vs t ts : meant_elem e w1 x x1 v t -> meant_all es w2 x1 x2 vs ts -> meant_all (e :: es) (w1 ++ w2) x x2 (v :: vs) (t :: ts).
End Meant.
Scheme meant_mind := Minimality for meant Sort Prop
  with meant_elem_mind := Minimality for meant_elem Sort Prop
  with meant_all_mind := Minimality for meant_all Sort Prop.
Combined Scheme meant_both from meant_mind, meant_elem_mind, meant_all_mind.

(** The tokens of a tree, in order *)
Fixpoint leaves (t : dtree) : list ident :=
  match t with LTok a => [a] | LRule _ ts => flat_map leaves ts | LNone => [] | LSome t => leaves t end.

(** [occurs t w T w']: [t] is a subtree of [T], and the tokens [w] come after it if [w'] come
    after [T]. *)
Inductive occurs (t : dtree) (w : list ident) : dtree -> list ident -> Prop :=
| oc_here : occurs t w t w
| oc_rule i l c r w' : occurs t w c (flat_map leaves r ++ w') -> occurs t w (LRule i (l ++ c :: r)) w'
| oc_some c w' : occurs t w c w' -> occurs t w (LSome c) w'.
(** [leads t T]: [t] is [T], or it leads its first child. *)
Inductive leads (t : dtree) : dtree -> Prop :=
| le_here : leads t t
| le_rule i c r : leads t c -> leads t (LRule i (c :: r))
| le_some c : leads t c -> leads t (LSome c).

(** The element can be the token [a] itself. *)
Definition shows (ds : list decl) (a : ident) (e : rhs_elem) : Prop :=
  (exists n al, e = ([n], false, al) /\ stands ds a n) \/ (exists ns o al, e = (ns, o, al) /\ 2 <= List.length ns /\ In a ns).
(** The same element, with any alias; not alternatives *)
Definition like (e e' : rhs_elem) : Prop := exists n o al al', e = ([n], o, al) /\ e' = ([n], o, al').

(** The token [a] was declared later than the rule [d] (or the token that gives the rule its
    precedence), or on the same line and that is a %right line. *)
Definition tok_over (ds : list decl) (a : ident) (d : drule) : Prop :=
  exists i u j v, assoc_of ds a = Some (i, u) /\ prec_of ds d = Some (j, v) /\ (j < i \/ i = j /\ u = ARight).
(** The rule [d] has its precedence from a later line than the token [a], or from the same
    line and that is a %left line. *)
Definition rule_over (ds : list decl) (d : drule) (a : ident) : Prop :=
  exists i u j v, assoc_of ds a = Some (i, u) /\ prec_of ds d = Some (j, v) /\ (i < j \/ i = j /\ u = ALeft).

(** ** Trees in which operators are nested as declared

    [i] is a rule [A -> ... A] (a prefix or an infix operator), [j] a rule [A -> A op ...]
    (an infix or a postfix operator) and [a] is the token [op]. *)
Definition ends_in (ds : list decl) (i : nat) (di : drule) (n : ident) : Prop :=
  nth_error (rules_in ds) i = Some di /\ exists es al, d_rhs di = es ++ [([n], false, al)].
Definition starts_with (ds : list decl) (j : nat) (n a : ident) : Prop :=
  exists dj al e es, nth_error (rules_in ds) j = Some dj /\ d_lhs dj = n /\ d_rhs dj = ([n], false, al) :: e :: es /\ shows ds a e.

(** In [x op1 (y op2 z)], written without the parentheses, [op2] is over [op1]'s rule; in
    [(x op1 y) op2 z] [op1]'s rule is over [op2]. *)
Record nested (ds : list decl) (T : dtree) : Prop := {
  ne_right : forall i di n l c w j u a us, occurs (LRule i (l ++ [c])) w T [] -> ends_in ds i di n -> d_lhs di = n ->
    leads (LRule j (u :: LTok a :: us)) c -> starts_with ds j n a -> tok_over ds a di;
  ne_left : forall i di n ts a w j, occurs (LRule i ts) (a :: w) T [] -> ends_in ds i di n -> starts_with ds j n a -> rule_over ds di a }.

(** ** Trees in which the dangling else is attached as declared

    [i] is a rule [A -> es A] (an [if] without [else]) and [j] a rule [A -> es A op ...] (with
    [else]). *)
Definition shorter (ds : list decl) (i j : nat) (di dj : drule) (a : ident) : Prop :=
  nth_error (rules_in ds) i = Some di /\ nth_error (rules_in ds) j = Some dj /\ d_lhs di = d_lhs dj /\
  exists es e es', d_rhs dj = es ++ e :: es' /\ Forall2 like (d_rhs di) es /\ shows ds a e.

(** In [if (if s else s)], written without the parentheses, [else] is over the rule without
    [else]; in [if (if s) else s] that rule is over [else]. *)
Record attached (ds : list decl) (T : dtree) : Prop := {
  at_inner : forall i j di dj k l c r w vs a ws n al es, shorter ds i j di dj a -> d_lhs di = n -> d_rhs di = es ++ [([n], false, al)] ->
    k = i \/ k = j -> occurs (LRule k (l ++ c :: r)) w T [] -> List.length l = List.length es ->
    leads (LRule j (vs ++ LTok a :: ws)) c -> List.length vs = List.length (d_rhs di) -> tok_over ds a di;
  at_outer : forall i j di dj ts a w, shorter ds i j di dj a -> occurs (LRule i ts) (a :: w) T [] -> rule_over ds di a }.

(** ** Grammars of operators

    The start symbol [s] is one operand [n]; every other rule is a rule for [n] of operands and
    tokens, no two operands side by side (so prefix, infix, postfix and mixfix operators, brackets
    and atoms).  A rule is known by the token it starts with, or by the token after its first
    operand; a token after the first operand of a rule is not after an inner operand of one. *)
Definition operand (n : ident) (e : rhs_elem) : Prop := exists al, e = ([n], false, al).
Definition is_token (ds : list decl) (a : ident) (e : rhs_elem) : Prop := is_terminal_ident a = true /\ class_of ds a = None /\ exists al, e = ([a], false, al).
Record operators (ds : list decl) (s n : ident) : Prop := {
  op_start : start_of ds = Some s;
  op_slow : is_nonterminal_ident s = true;
  op_low : is_nonterminal_ident n = true;
  op_new : s <> n;
  op_top : forall i j di dj, nth_error (rules_in ds) i = Some di -> nth_error (rules_in ds) j = Some dj -> d_lhs di = s -> d_lhs dj = s -> i = j;
  op_rule : forall d, In d (rules_in ds) -> (d_lhs d = s /\ exists e, d_rhs d = [e] /\ operand n e) \/
    (d_lhs d = n /\ d_rhs d <> [] /\ (forall e, d_rhs d = [e] -> ~ operand n e) /\ (forall e, In e (d_rhs d) -> operand n e \/ exists a, is_token ds a e) /\
     forall l e e' l', d_rhs d = l ++ e :: e' :: l' -> operand n e -> ~ operand n e');
  op_head : forall i j di dj a e e' l l', nth_error (rules_in ds) i = Some di -> nth_error (rules_in ds) j = Some dj ->
    d_rhs di = e :: l -> d_rhs dj = e' :: l' -> is_token ds a e -> is_token ds a e' -> i = j;
  op_infix : forall i j di dj a o o' e e' l l', nth_error (rules_in ds) i = Some di -> nth_error (rules_in ds) j = Some dj ->
    d_rhs di = o :: e :: l -> d_rhs dj = o' :: e' :: l' -> operand n o -> operand n o' -> is_token ds a e -> is_token ds a e' -> i = j;
  op_inner : forall i j di dj a o o' e e' l l1 l2, nth_error (rules_in ds) i = Some di -> nth_error (rules_in ds) j = Some dj ->
    d_rhs di = o :: e :: l -> d_rhs dj = l1 ++ o' :: e' :: l2 -> operand n o -> operand n o' -> is_token ds a e -> is_token ds a e' -> l1 = [] }.
