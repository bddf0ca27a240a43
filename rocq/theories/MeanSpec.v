(** What the declarations say a token string means: the values the blocks give when run
    bottom-up and left to right.  Only the declarations and the user's code are used. *)
From Verif Require Import Base Syntax FrontEnd DeclSpec User.
Open Scope string_scope. Open Scope nat_scope. Open Scope list_scope.

(** An element of a right-hand side and its explicit type, before %default_type *)
Definition elem_type (ds : list decl) (e : rhs_elem) : option ty :=
  let '(ns, o, _) := e in
  match ns with
  | [n] => if (o : bool) then Some (TyOption (or_unit (raw_type ds n))) else raw_type ds n
  | _ => None
  end.
Definition is_aliased (e : rhs_elem) : bool := let '(_, _, al) := e in opt_is_some al.
Definition chosen {V} (p : rhs_elem -> bool) (es : list rhs_elem) (vs : list V) : list V :=
  map snd (filter (fun q => p (fst q)) (combine es vs)).

Section Means.
Context (ds : list decl) {V X E : Type} (sm : sem V X E).
(** [tk a b]: the token [a] of the input may be taken for the token [b] of the grammar *)
Context (tk : ident -> ident -> Prop).

(** What a rule makes of the values of its elements: its block applied to the values of the
    elements with an alias.  Without a block it is [()] if the left-hand side has no type, and
    the value of the only element with a type if it has one. *)
Definition result (d : drule) (vs : list V) (x : X) : option (X * (V + E)) :=
  match d_code d with
  | Some c => Some (u_block sm c (chosen is_aliased (d_rhs d) vs) x)
  | None =>
      match type_of ds (d_lhs d) with
      | None => Some (x, inl (v_unit sm))
      | Some _ => match chosen (fun e => opt_is_some (elem_type ds e)) (d_rhs d) vs with [v] => Some (x, inl v) | _ => None end
      end
  end.

(** [means n w x x' v]: reading the tokens [w] (each with its value) as an [n] gives [v] and
    takes the extra value from [x] to [x']. *)
Inductive means : ident -> list (ident * V) -> X -> X -> V -> Prop :=
| me_tok a v b n x : tk a b -> stands ds b n -> means n [(a, v)] x x v
| me_rule d w vs v x x1 x2 : In d (rules_in ds) -> means_all (d_rhs d) w x x1 vs -> result d vs x1 = Some (x2, inl v) -> means (d_lhs d) w x x2 v
with means_elem : rhs_elem -> list (ident * V) -> X -> X -> V -> Prop :=
| me_one n al w x x' v : means n w x x' v -> means_elem ([n], false, al) w x x' v
| me_none n al x : means_elem ([n], true, al) [] x x (v_none sm)
| me_some n al w x x' v : means n w x x' v -> means_elem ([n], true, al) w x x' (v_some sm v)
| me_alt ns o al a v b x : 2 <= List.length ns -> tk a b -> In b ns -> means_elem (ns, o, al) [(a, v)] x x v
with means_all : list rhs_elem -> list (ident * V) -> X -> X -> list V -> Prop :=
| me_nil x : means_all [] [] x x []
| me_cons e es w1 w2 x x1 x2 v vs : means_elem e w1 x x1 v -> means_all es w2 x1 x2 vs -> means_all (e :: es) (w1 ++ w2) x x2 (v :: vs).
End Means.

Scheme means_mind := Minimality for means Sort Prop
  with means_elem_mind := Minimality for means_elem Sort Prop
  with means_all_mind := Minimality for means_all Sort Prop.
Combined Scheme means_both from means_mind, means_elem_mind, means_all_mind.
