(** What the declarations say an input means that was accepted although some of its tokens
    were wrong.  Every token has met one of three fates.  Without a mention of [error] a
    wrong token is passed over; with one, an [error] stands for the pieces that were given
    up and for the wrong tokens.  Only the declarations and the user's code are used. *)
From Verif Require Import Base Syntax FrontEnd DeclSpec Runtime User MeanSpec DeclMore Main.
Open Scope string_scope. Open Scope nat_scope. Open Scope list_scope.

Inductive fate := Shifted | Reported | Silent.

(** The fates of the tokens so far, read off the log (newest event first).  The flag: the
    %syntax_error block has been run and the token has not been dropped yet. *)
Fixpoint told (l : list event) : bool * list fate :=
  match l with
  | [] => (false, [])
  | e :: l' =>
      let '(r, fs) := told l' in
      match e with
      | EvShift _ => (false, fs ++ [Shifted])
      | EvSyntaxError _ => (true, fs)
      | EvDrop _ => (false, fs ++ [if r then Reported else Silent])
      | _ => (r, fs)
      end
  end.
Definition fates (l : list event) : list fate := snd (told l).

Section Mended.
Context (ds : list decl) {V X E : Type} (sm : sem V X E).
Context (tk : ident -> ident -> Prop).
(** The names of the tokens *)
Context (nm : token V -> ident).

(** The %syntax_error block run for the token [k] returned Ok([v]). *)
Definition report (k : token V) (x x' : X) (v : V) : Prop := exists ex, u_syntax sm (Some k) ex x = (x', inl v).

(** What can be given up: an element of a rule, or what is optional in one, but no [error]. *)
Definition piece (e : rhs_elem) : Prop := (forall al, e <> (["error"], false, al)) /\ exists d, In d (rules_in ds) /\
  (In e (d_rhs d) \/ exists n al, e = ([n], false, al) /\ In ([n], true, al) (d_rhs d)).

Definition passed (k : token V) (f : fate) (x x' : X) : Prop :=
  match f with Shifted => False | Reported => exists v, report k x x' v | Silent => x' = x end.

(** [mended n w x x' v]: the tokens [w], each with its fate, stand for an [n] with the value
    [v], and take the extra value from [x] to [x'].
    - [mn_error]: the pieces [es] had been read (and their blocks run) when [k] turned out to
      be wrong; they and [k] are replaced by an [error] whose value is what the
      %syntax_error block returned;
    - [mn_more]: the same, but nothing but the pieces [es] stands after an [error]; this
      [error] now also stands for them and for [k], and nothing is reported. *)
Inductive mended : ident -> list (token V * fate) -> X -> X -> V -> Prop :=
| mn_tok k b n x : tk (nm k) b -> stands ds b n -> mended n [(k, Shifted)] x x (payload sm k)
| mn_rule d w vs v x x1 x2 : In d (rules_in ds) -> mended_all (d_rhs d) w x x1 vs -> result ds sm d vs x1 = Some (x2, inl v) -> mended (d_lhs d) w x x2 v
| mn_error es w vs k v x x1 x2 : mentions ds "error" -> Forall piece es -> mended_all es w x x1 vs -> report k x1 x2 v ->
    mended "error" (w ++ [(k, Reported)]) x x2 v
| mn_more es w1 w2 vs k v x x1 x2 : mentions ds "error" -> Forall piece es -> mended "error" w1 x x1 v -> mended_all es w2 x1 x2 vs ->
    mended "error" (w1 ++ w2 ++ [(k, Silent)]) x x2 v
with mended_elem : rhs_elem -> list (token V * fate) -> X -> X -> V -> Prop :=
| mn_one n al w x x' v : mended n w x x' v -> mended_elem ([n], false, al) w x x' v
| mn_none n al w x x' : mended_all [] w x x' [] -> mended_elem ([n], true, al) w x x' (v_none sm)
| mn_some n al w x x' v : mended_all [([n], false, al)] w x x' [v] -> mended_elem ([n], true, al) w x x' (v_some sm v)
| mn_alt ns o al k b x : 2 <= List.length ns -> tk (nm k) b -> In b ns -> mended_elem (ns, o, al) [(k, Shifted)] x x (payload sm k)
with mended_all : list rhs_elem -> list (token V * fate) -> X -> X -> list V -> Prop :=
| mn_nil x : mended_all [] [] x x []
| mn_cons e es w1 w2 x x1 x2 v vs : mended_elem e w1 x x1 v -> mended_all es w2 x1 x2 vs -> mended_all (e :: es) (w1 ++ w2) x x2 (v :: vs)
| mn_pass es k f w vs x x1 x2 : ~ mentions ds "error" -> passed k f x x1 -> mended_all es w x1 x2 vs -> mended_all es ((k, f) :: w) x x2 vs.
End Mended.

Scheme mended_mind := Minimality for mended Sort Prop
  with mended_elem_mind := Minimality for mended_elem Sort Prop
  with mended_all_mind := Minimality for mended_all Sort Prop.
Combined Scheme mended_both from mended_mind, mended_elem_mind, mended_all_mind.
