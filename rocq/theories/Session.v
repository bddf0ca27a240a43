(** The accessors of the extra argument, used between the calls of parse(): mod.rs 2604-2630.
    [extra()] and [into_extra()] give [ps_extra]; a borrow through [extra_mut()] can leave any
    value there, so its use is a function on the extra value. *)
From Verif Require Import Base Syntax FrontEnd Actions Tables Runtime User.

Section Session.
Context {M X E R : Type}.

(** mod.rs 2618-2626 *)
Definition extra (p : parser M X R) : X := ps_extra p.
Definition into_extra (p : parser M X R) : X := ps_extra p.
Definition extra_mut (p : parser M X R) (f : X -> X) : parser M X R := set_extra p (f (ps_extra p)).

(** parse() for each token, and after each successful call whatever the caller does with
    extra_mut(); the session stops at the first Err. *)
Fixpoint parse_with (fuel : nat) (t : tables) (h : hooks M X E R) (p : parser M X R) (ts : list (nat * (M * (X -> X)))) : res M X E R unit :=
  match ts with
  | [] => ROk tt p
  | (a, (m, f)) :: ts' => rbind (parse_token fuel t h p a m) (fun _ p1 => parse_with fuel t h (extra_mut p1 f) ts')
  end.

(** new, the calls of parse() with what the caller does in between, end_of_input *)
Definition run_with (fuel : nat) (t : tables) (h : hooks M X E R) (x : X) (ts : list (nat * (M * (X -> X)))) : res M X E R (R * X) :=
  rbind (parse_with fuel t h (new_parser h x) ts) (fun _ p => end_of_input fuel t h p).
End Session.

(** The same through the public interface: the tokens are those of the generated enum. *)
Definition with_value {V X E} (t : tables) (sm : sem V X E) (k : token V * (X -> X)) : nat * (minor V * (X -> X)) :=
  (fst (token_value t sm (fst k)), (snd (token_value t sm (fst k)), snd k)).
Definition api_with {V X E} (fuel : nat) (t : tables) (sm : sem V X E) (x : X) (ks : list (token V * (X -> X))) : res (minor V) X E V (V * X) :=
  run_with fuel t (user_hooks t sm) x (map (with_value t sm) ks).
