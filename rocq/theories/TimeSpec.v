(** What the declarations say a session means in which the caller changes the extra value
    between the calls of parse(): the change made after a token has been handed over comes
    after every block of what was read before that token and before every block that needs
    the token or what follows it. *)
From Verif Require Import Base Syntax FrontEnd DeclSpec User MeanSpec.

Section Timed.
Context (ds : list decl) {V X E : Type} (sm : sem V X E).
Context (tk : ident -> ident -> Prop).

(** [timed n w x x' v]: reading the tokens [w], each with its value and with what the caller
    does to the extra value after handing it over, as an [n] gives [v] and takes the extra
    value from [x] to [x']. *)
Inductive timed : ident -> list (ident * (V * (X -> X))) -> X -> X -> V -> Prop :=
| ti_tok a v f b n x : tk a b -> stands ds b n -> timed n [(a, (v, f))] x (f x) v
| ti_rule d w vs v x x1 x2 : In d (rules_in ds) -> timed_all (d_rhs d) w x x1 vs -> result ds sm d vs x1 = Some (x2, inl v) -> timed (d_lhs d) w x x2 v
with timed_elem : rhs_elem -> list (ident * (V * (X -> X))) -> X -> X -> V -> Prop :=
| ti_one n al w x x' v : timed n w x x' v -> timed_elem ([n], false, al) w x x' v
| ti_none n al x : timed_elem ([n], true, al) [] x x (v_none sm)
| ti_some n al w x x' v : timed n w x x' v -> timed_elem ([n], true, al) w x x' (v_some sm v)
| ti_alt ns o al a v f b x : 2 <= List.length ns -> tk a b -> In b ns -> timed_elem (ns, o, al) [(a, (v, f))] x (f x) v
with timed_all : list rhs_elem -> list (ident * (V * (X -> X))) -> X -> X -> list V -> Prop :=
| ti_nil x : timed_all [] [] x x []
| ti_cons e es w1 w2 x x1 x2 v vs : timed_elem e w1 x x1 v -> timed_all es w2 x1 x2 vs -> timed_all (e :: es) (w1 ++ w2) x x2 (v :: vs).
End Timed.

Scheme timed_mind := Minimality for timed Sort Prop
  with timed_elem_mind := Minimality for timed_elem Sort Prop
  with timed_all_mind := Minimality for timed_all Sort Prop.
Combined Scheme timed_both from timed_mind, timed_elem_mind, timed_all_mind.
