(** Grammars that choose a rule by the next token (C52). *)
From Verif Require Import Base Syntax DeclSpec.

(** The tokens an element stands for, if it is a token, a class or alternatives *)
Definition tokens_of (ds : list decl) (e : rhs_elem) : list ident :=
  match e with
  | ([n], _, _) => if is_terminal_ident n then match class_of ds n with Some ms => ms | None => [n] end else []
  | (ns, _, _) => ns
  end.
Definition is_optional (e : rhs_elem) : bool := match e with ([_], o, _) => o | _ => false end.

(** The element can stand for nothing. *)
Inductive skips (ds : list decl) : rhs_elem -> Prop :=
| sk_opt n al : skips ds ([n], true, al)
| sk_rule r o al : In r (rules_in ds) -> skips_all ds (d_rhs r) -> skips ds ([d_lhs r], o, al)
with skips_all (ds : list decl) : list rhs_elem -> Prop :=
| sk_nil : skips_all ds []
| sk_cons e es : skips ds e -> skips_all ds es -> skips_all ds (e :: es).
(** Token [t] can be the first of what it stands for. *)
Inductive begins (ds : list decl) (t : ident) : rhs_elem -> Prop :=
| bg_tok e : In t (tokens_of ds e) -> begins ds t e
| bg_rule r o al : In r (rules_in ds) -> begins_all ds t (d_rhs r) -> begins ds t ([d_lhs r], o, al)
with begins_all (ds : list decl) (t : ident) : list rhs_elem -> Prop :=
| bg_here e es : begins ds t e -> begins_all ds t (e :: es)
| bg_skip e es : skips ds e -> begins_all ds t es -> begins_all ds t (e :: es).
(** Token [t] can come right after the name [n], or after [n?]. *)
Inductive comes_after (ds : list decl) (t : ident) : ident -> bool -> Prop :=
| ca_next r l1 n o al l2 : In r (rules_in ds) -> d_rhs r = l1 ++ ([n], o, al) :: l2 -> begins_all ds t l2 -> comes_after ds t n o
| ca_last r l1 n o al l2 : In r (rules_in ds) -> d_rhs r = l1 ++ ([n], o, al) :: l2 -> skips_all ds l2 ->
    comes_after ds t (d_lhs r) false -> comes_after ds t n o.

(** Every rule is empty or begins with a token, a class or alternatives; rules for the same name
    begin with different tokens; no token that begins one of them can come after the name if
    the name also has an empty rule; only tokens and classes are optional, and what is optional
    cannot come next as well. *)
Record chooses (ds : list decl) : Prop := {
  cho_begin : forall r e es, In r (rules_in ds) -> d_rhs r = e :: es -> tokens_of ds e <> [] /\ is_optional e = false;
  cho_apart : forall i j r q e es f fs t, nth_error (rules_in ds) i = Some r -> nth_error (rules_in ds) j = Some q -> i <> j -> d_lhs r = d_lhs q ->
    d_rhs r = e :: es -> d_rhs q = f :: fs -> In t (tokens_of ds e) -> ~ In t (tokens_of ds f);
  cho_empty : forall i j r q, nth_error (rules_in ds) i = Some r -> nth_error (rules_in ds) j = Some q -> d_lhs r = d_lhs q -> d_rhs r = [] -> d_rhs q = [] -> i = j;
  cho_after : forall r q e es t, In r (rules_in ds) -> In q (rules_in ds) -> d_lhs r = d_lhs q -> d_rhs r = [] -> d_rhs q = e :: es ->
    In t (tokens_of ds e) -> ~ comes_after ds t (d_lhs r) false;
  cho_opt : forall r n al t, In r (rules_in ds) -> In ([n], true, al) (d_rhs r) -> is_terminal_ident n = true /\
    (In t (tokens_of ds ([n], true, al)) -> ~ comes_after ds t n true);
  cho_once : forall r e, In r (rules_in ds) -> In e (d_rhs r) -> NoDup (tokens_of ds e) }.

(** ** Rules of use *)
(** Some tokens match the element. *)
Inductive yields (ds : list decl) : rhs_elem -> Prop :=
| yd_tok e t : In t (tokens_of ds e) -> yields ds e
| yd_opt n al : yields ds ([n], true, al)
| yd_rule r o al : In r (rules_in ds) -> yields_all ds (d_rhs r) -> yields ds ([d_lhs r], o, al)
with yields_all (ds : list decl) : list rhs_elem -> Prop :=
| yd_nil : yields_all ds []
| yd_cons e es : yields ds e -> yields_all ds es -> yields_all ds (e :: es).
(** The start symbol leads to the name. *)
Inductive leads_to (ds : list decl) : ident -> Prop :=
| ld_start s : start_of ds = Some s -> leads_to ds s
| ld_rule r n o al : In r (rules_in ds) -> leads_to ds (d_lhs r) -> In ([n], o, al) (d_rhs r) -> leads_to ds n.
Definition all_needed (ds : list decl) : Prop := forall r, In r (rules_in ds) -> leads_to ds (d_lhs r) /\ yields_all ds (d_rhs r).

Scheme skips_mind := Minimality for skips Sort Prop with skips_all_mind := Minimality for skips_all Sort Prop.
Combined Scheme skips_both from skips_mind, skips_all_mind.
Scheme begins_mind := Minimality for begins Sort Prop with begins_all_mind := Minimality for begins_all Sort Prop.
Combined Scheme begins_both from begins_mind, begins_all_mind.
Scheme yields_mind := Minimality for yields Sort Prop with yields_all_mind := Minimality for yields_all Sort Prop.
Combined Scheme yields_both from yields_mind, yields_all_mind.
