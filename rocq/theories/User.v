(** The generated parser with the code generated for rules and tokens
    (mod.rs 2343-2400, 2891-2958, 2964-3022), parametric in the user's blocks. *)
From Verif Require Import Base Syntax FrontEnd First States Actions Tables Runtime.

Section User.
Context {V X E : Type}.

(** A public token: the terminal's number and, if its variant has a field, the data. *)
Definition token := (nat * option V)%type.

(** The user's code.  A block may read and change the extra value and may fail
    (through [?] or [return Err]).  The three handlers stand for the declared
    blocks or for the default code (mod.rs 2202-2221). *)
Record sem := mkSem {
  v_unit : V; v_none : V; v_some : V -> V;
  u_block : code -> list V -> X -> X * (V + E);
  u_syntax : option token -> list (nat * option token) -> X -> X * (V + E);
  u_fail : X -> X * E;
  u_overflow : option token -> X -> X * E }.

(** YYMinorType: the variant number and the payload *)
Definition minor := (nat * V)%type.

Definition dt_of (t : tables) (i : nat) : nat := nth i (t_dts t) 0.
Definition typed (t : tables) (i : nat) : bool := nth i (t_typed t) false.

(** mod.rs 2386-2392 *)
Definition token_value (t : tables) (s : sem) (k : token) : nat * minor :=
  (fst k, (dt_of t (fst k), match snd k with Some v => v | None => v_unit s end)).

(** mod.rs 2393-2399 *)
Definition token_build (t : tables) (i : nat) (m : minor) : option token :=
  if (0 <? i) && (i <? t_nterm t) then
    if typed t i then if fst m =? dt_of t i then Some (i, Some (snd m)) else None
    else Some (i, None)
  else None.

(** The tokens a Rust program can construct *)
Definition token_wf (t : tables) (k : token) : Prop :=
  0 < fst k < t_nterm t /\ (typed t (fst k) = true <-> snd k <> None).

(** mod.rs 3013-3016: the values bound by the aliases; [None] is "impossible pattern" *)
Fixpoint match_args (rhs : list (nat * bool * nat)) (vals : list minor) : option (list V) :=
  match rhs, vals with
  | [], [] => Some []
  | (_, alias, dt) :: rhs', (d, v) :: vals' =>
      if alias then
        if d =? dt then option_map (cons v) (match_args rhs' vals') else None
      else match_args rhs' vals'
  | _, _ => None
  end.

(** The block of a rule.  The irrefutable-alias assumption: an alias is a plain
    binding; a refutable pattern written by the user is the user's own panic. *)
Definition run_code (s : sem) (c : rcode) (args : list V) (x : X) : option (X * (V + E)) :=
  match c with
  | CUser b => Some (u_block s b args x)
  | CAbsent => Some (x, inl (v_unit s))
  | COptNone => Some (x, inl (v_none s))
  | COptSome => match args with [v] => Some (x, inl (v_some s v)) | _ => None end
  | CAuto => match args with [v] => Some (x, inl v) | _ => None end
  end.

Definition rule_reduce (t : tables) (s : sem) (r : nat) (vals : list minor) (x : X)
  : option (X * (minor + E)) :=
  let rr := nth r (t_rules t) dummy_rt in
  match match_args (rr_rhs rr) vals with
  | None => None
  | Some args =>
      match run_code s (rr_code rr) args x with
      | None => None
      | Some (x', inl v) => Some (x', inl (rr_dt rr, v))
      | Some (x', inr e) => Some (x', inr e)
      end
  end.

Definition user_hooks (t : tables) (s : sem) : hooks minor X E V :=
  {| h_reduce := rule_reduce t s;
     h_accept := fun m => match t_root t with
                          | None => Some (v_unit s)
                          | Some n => if fst m =? n then Some (snd m) else None
                          end;
     h_syntax := fun major m exp x =>
       let '(x', r) := u_syntax s (token_build t major m)
                         (map (fun i => (i, token_build t i (0, v_unit s))) exp) x in
       (x', match r with
            | inl v => inl (dt_of t (t_err t), v)
            | inr e => inr e
            end);
     h_fail := u_fail s;
     h_overflow := fun major m x => u_overflow s (token_build t major m) x;
     h_unit := (0, v_unit s) |}.

(** The public API: mod.rs 2636-2639, 2654-2657 *)
Definition api_parse (fuel : nat) (t : tables) (s : sem) (p : parser minor X V) (k : token) :=
  let '(a, b) := token_value t s k in parse_token fuel t (user_hooks t s) p a b.
Definition api_run (fuel : nat) (t : tables) (s : sem) (x : X) (ks : list token) :=
  run fuel t (user_hooks t s) x (map (token_value t s) ks).
End User.
Arguments sem : clear implicits.
Arguments token : clear implicits.
Arguments minor : clear implicits.
