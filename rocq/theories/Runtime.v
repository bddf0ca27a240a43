(** The generated parser: mod.rs 2571-2958.

    The machine is parametric in the type [M] of stack values (YYMinorType), the
    type [X] of the extra argument, the error type [E] and the type [R] of the
    root value, and in the user code, collected in [hooks].  User.v instantiates
    it with the code [generate_source] emits for rule blocks and tokens.

    [ps_log] is a ghost: the list of things the parser did, latest first.  It is
    written and never read. *)
From Verif Require Import Base Syntax FrontEnd First States Actions Tables.

Inductive event :=
| EvShift (major : nat)        (* a token was shifted *)
| EvReduce (rule : nat)        (* the block of a rule was run *)
| EvAccept
| EvSyntaxError (major : nat)  (* the %syntax_error block was run *)
| EvPop                        (* error recovery popped a stack entry *)
| EvError                      (* the error symbol was shifted *)
| EvDrop (major : nat)         (* a token was discarded *)
| EvParseFail                  (* the %parse_fail block was run *)
| EvOverflow (major : nat).    (* the %stack_overflow block was run *)

Section Machine.
Context {M X E R : Type}.

(** User code and the code generated around it.  A [None] is a panic of that code
    ("impossible pattern", "unexpected root type"). *)
Record hooks := mkHooks {
  h_reduce : nat -> list M -> X -> option (X * (M + E));
      (* rule, values of its right-hand side, left to right: mod.rs 2944-2946 *)
  h_accept : M -> option R;                                  (* mod.rs 2922-2938 *)
  h_syntax : nat -> M -> list nat -> X -> X * (M + E);       (* mod.rs 2891-2904 *)
  h_fail : X -> X * E;                                       (* mod.rs 2878-2884 *)
  h_overflow : nat -> M -> X -> X * E;                       (* mod.rs 2864-2868 *)
  h_unit : M }.                                              (* YYMinorType::YY0(()) *)

(** mod.rs 2572-2579 *)
Record entry := mkEntry { e_state : nat; e_major : nat; e_minor : M }.

(** mod.rs 2581-2585 *)
Inductive status := Normal | Failed | Accepted (r : R).

(** mod.rs 2563-2568; the head of [ps_stack] is the top. *)
Record parser := mkParser {
  ps_count : nat;
  ps_stack : list entry;
  ps_extra : X;
  ps_status : status;
  ps_log : list event }.

(** Outcome of a runtime function: a value with the parser, an error with the
    parser, a panic, or (not a result of the code) fuel exhausted. *)
Inductive res (A : Type) :=
| ROk (a : A) (p : parser) | RErr (e : E) (p : parser) | RPanic | RFuel.
Arguments ROk {A} a p. Arguments RErr {A} e p. Arguments RPanic {A}. Arguments RFuel {A}.

Definition set_stack (p : parser) (s : list entry) : parser :=
  mkParser (ps_count p) s (ps_extra p) (ps_status p) (ps_log p).
Definition set_extra (p : parser) (x : X) : parser :=
  mkParser (ps_count p) (ps_stack p) x (ps_status p) (ps_log p).
Definition set_count (p : parser) (n : nat) : parser :=
  mkParser n (ps_stack p) (ps_extra p) (ps_status p) (ps_log p).
Definition set_status (p : parser) (s : status) : parser :=
  mkParser (ps_count p) (ps_stack p) (ps_extra p) s (ps_log p).
Definition log (p : parser) (e : event) : parser :=
  mkParser (ps_count p) (ps_stack p) (ps_extra p) (ps_status p) (e :: ps_log p).

(** Result of a table lookup: mod.rs 2803-2857 *)
Inductive look := LAct (a : nat) | LPanic | LLoop.

(** Indexing a table with an i32 that has been checked or is known to be
    non-negative; out of range panics. *)
Definition default_action (t : tables) (s : nat) : look :=
  match nth_error (t_default t) s with Some a => LAct a | None => LPanic end.

Definition zidx (i : Z) (len : nat) : option nat :=
  if (i <? 0)%Z || (Z.of_nat len <=? i)%Z then None else Some (Z.to_nat i).

(** mod.rs 2803-2834.  The recursion follows YY_FALLBACK; a chain visiting more
    symbols than exist never ends, so running out of the [S t_nsym] steps given
    by [find_shift_action] is the infinite recursion of the code. *)
Fixpoint find_shift_action_n (n : nat) (t : tables) (s : nat) (la : nat) : look :=
  match n with
  | 0 => LLoop
  | S n' =>
      match nth_error (t_shift_ofst t) s with
      | None => default_action t s                              (* stateno > YY_SHIFT_COUNT *)
      | Some i =>
          if (i =? t_shift_min t - 1)%Z then default_action t s (* YY_SHIFT_USE_DFLT *)
          else if la =? t_nsym t then LPanic                    (* assert, 2812 *)
          else
            let j := (i + Z.of_nat la)%Z in
            match
              match zidx j (List.length (t_action t)) with
              | None => None
              | Some k => if nth k (t_lookahead t) 0 =? la then Some (nth k (t_action t) 0) else None
              end
            with
            | Some a => LAct a
            | None =>
                if la =? 0 then default_action t s
                else if negb (nth la (t_fallback t) 0 =? 0)     (* in range and not 0 *)
                     then find_shift_action_n n' t s (nth la (t_fallback t) 0)
                else if t_wild t =? 0 then default_action t s
                else
                  match zidx (i + Z.of_nat (t_wild t)) (List.length (t_action t)) with
                  | None => default_action t s
                  | Some k =>
                      if nth k (t_lookahead t) 0 =? t_wild t then LAct (nth k (t_action t) 0)
                      else default_action t s
                  end
            end
      end
  end.
Definition find_shift_action (t : tables) (s la : nat) : look :=
  find_shift_action_n (S (t_nsym t)) t s la.

(** mod.rs 2840-2857 *)
Definition find_reduce_action (t : tables) (s la : nat) : look :=
  match nth_error (t_reduce_ofst t) s with
  | None => if t_err t =? 0 then LPanic else default_action t s  (* 2843-2846 *)
  | Some i =>
      if (i =? t_reduce_min t - 1)%Z then LPanic                 (* 2848 *)
      else if la =? t_nsym t then LPanic                         (* 2849 *)
      else
        match
          match zidx (i + Z.of_nat la) (List.length (t_action t)) with
          | None => None
          | Some k => if nth k (t_lookahead t) 0 =? la then Some (nth k (t_action t) 0) else None
          end
        with
        | Some a => LAct a
        | None => if t_err t =? 0 then LPanic else default_action t s (* 2851-2855 *)
        end
  end.

(** mod.rs 2861-2874 *)
Definition yy_shift (t : tables) (h : hooks) (p : parser) (ns major : nat) (minor : M) : res unit :=
  if negb (t_limit t =? 0) && (t_limit t <=? List.length (ps_stack p)) then
    let '(x, e) := h_overflow h major minor (ps_extra p) in
    RErr e (log (set_extra p x) (EvOverflow major))
  else ROk tt (set_stack p (mkEntry ns major minor :: ps_stack p)).

(** Popping [n] entries, mod.rs 2968-2971: the values left to right and the
    remaining stack; [None] is pop().unwrap() failing. *)
Fixpoint pop_n (n : nat) (s : list entry) (acc : list M) : option (list M * list entry) :=
  match n with
  | 0 => Some (acc, s)
  | S n' => match s with
            | [] => None
            | e :: s' => pop_n n' s' (e_minor e :: acc)
            end
  end.

Definition rbind {A B} (r : res A) (f : A -> parser -> res B) : res B :=
  match r with ROk a p => f a p | RErr e p => RErr e p | RPanic => RPanic | RFuel => RFuel end.

Definition dummy_rt : rt_rule := mkRtRule 0 [] CAbsent 0.

(** mod.rs 2941-2957 *)
Definition yy_reduce (t : tables) (h : hooks) (p : parser) (r : nat) : res unit :=
  match nth_error (t_rules t) r with
  | None => RPanic                                    (* "no rule to apply" *)
  | Some rr =>
      match pop_n (List.length (rr_rhs rr)) (ps_stack p) [] with
      | None => RPanic
      | Some (vals, rest) =>
          match h_reduce h r vals (ps_extra p) with
          | None => RPanic                            (* "impossible pattern" *)
          | Some (x, ve) =>
              let p1 := log (set_extra (set_stack p rest) x) (EvReduce r) in
              match ve with
              | inr e => RErr e p1
              | inl v =>
                  match rest with
                  | [] => RPanic                      (* yystack.last().unwrap(), 2842 *)
                  | top :: _ =>
                      match find_reduce_action t (e_state top) (rr_lhs rr) with
                      | LPanic => RPanic
                      | LLoop => RFuel
                      | LAct a =>
                          if a <? t_nstate t then yy_shift t h p1 a (rr_lhs rr) v
                          else if a =? t_nstate t + t_nrule t + 1 then
                            match h_accept h v with
                            | None => RPanic          (* "unexpected root type" *)
                            | Some root =>
                                ROk tt (log (set_status (set_stack p1 []) (Accepted root)) EvAccept)
                            end
                          else RPanic                 (* assert, 2953 *)
                      end
                  end
              end
          end
      end
  end.

(** mod.rs 2878-2884 *)
Definition yy_parse_failed {A} (h : hooks) (p : parser) : res A :=
  let '(x, e) := h_fail h (ps_extra p) in
  RErr e (log (set_extra (set_stack p []) x) EvParseFail).

(** mod.rs 2661-2692, collected into a list: the majors [next] returns.  A lookup
    that panics or never ends is left out here; theorem C07 shows there is none
    under its hypotheses. *)
Definition expected_tokens (t : tables) (s : nat) : list nat :=
  filter (fun m => match find_shift_action t s m with
                   | LAct a => a <? t_nstate t + t_nrule t
                   | _ => false
                   end) (seq 1 (t_nterm t - 1)).

(** mod.rs 2754-2764: pop until the error symbol is, or can be put, on top.
    [st0] is the state in which the error was detected. *)
Fixpoint recover (t : tables) (h : hooks) (n : nat) (st0 major : nat) (minor : M) (p : parser)
  : res unit :=
  match n with
  | 0 => RFuel
  | S n' =>
      match ps_stack p with
      | [] => ROk tt p
      | top :: rest =>
          if e_major top =? t_err t then ROk tt p
          else
            match find_reduce_action t (e_state top) (t_err t) with
            | LPanic => RPanic
            | LLoop => RFuel
            | LAct a =>
                if a <? t_nstate t then
                  let '(x, ve) := h_syntax h major minor (expected_tokens t st0) (ps_extra p) in
                  let p1 := log (set_extra p x) (EvSyntaxError major) in
                  match ve with
                  | inr e => RErr e p1
                  | inl v => rbind (yy_shift t h p1 a (t_err t) v)
                               (fun _ p2 => ROk tt (log p2 EvError))
                  end
                else recover t h n' st0 major minor (log (set_stack p rest) EvPop)
            end
      end
  end.

(** mod.rs 2723-2789: a syntax error on [major] in state [st0] *)
Definition syntax_error (t : tables) (h : hooks) (p : parser) (st0 major : nat) (minor : M)
  : res unit :=
  if major =? 0 then yy_parse_failed h p
  else if negb (t_err t =? 0) then
    rbind (recover t h (S (List.length (ps_stack p))) st0 major minor p) (fun _ p1 =>
      match ps_stack p1 with
      | [] => yy_parse_failed h p1
      | _ => ROk tt (log (set_count p1 3) (EvDrop major))
      end)
  else if ps_count p =? 0 then
    let '(x, ve) := h_syntax h major minor (expected_tokens t st0) (ps_extra p) in
    let p1 := log (set_extra p x) (EvSyntaxError major) in
    match ve with
    | inr e => RErr e p1
    | inl _ => ROk tt (log (set_count p1 3) (EvDrop major))
    end
  else ROk tt (log (set_count p 3) (EvDrop major)).

(** mod.rs 2708-2792.  [fuel] bounds the number of iterations of the loop. *)
Fixpoint parse_token_2 (fuel : nat) (t : tables) (h : hooks) (p : parser) (major : nat) (minor : M)
  : res unit :=
  match fuel with
  | 0 => RFuel
  | S n =>
      match ps_status p with
      | Normal =>
          match ps_stack p with
          | [] => RPanic                              (* yystack.last().unwrap(), 2800 *)
          | top :: _ =>
              match find_shift_action t (e_state top) major with
              | LPanic => RPanic
              | LLoop => RFuel
              | LAct a =>
                  if a <? t_nstate t then
                    if major =? 0 then RPanic         (* assert, 2716 *)
                    else rbind (yy_shift t h p a major minor) (fun _ p1 =>
                           ROk tt (log (set_count p1 (ps_count p1 - 1)) (EvShift major)))
                  else if a <? t_nstate t + t_nrule t then
                    rbind (yy_reduce t h p (a - t_nstate t)) (fun _ p1 =>
                      parse_token_2 n t h p1 major minor)
                  else if a =? t_nstate t + t_nrule t
                  then syntax_error t h p (e_state top) major minor
                  else RPanic                         (* assert, 2727 *)
              end
          end
      | _ => ROk tt p
      end
  end.

(** mod.rs 2695-2707 *)
Definition parse_token (fuel : nat) (t : tables) (h : hooks) (p : parser) (major : nat) (minor : M)
  : res unit :=
  match ps_status p with
  | Normal =>
      match parse_token_2 fuel t h p major minor with
      | RErr e p1 => RErr e (set_status p1 Failed)
      | r => r
      end
  | _ => RPanic                                       (* "Cannot call parse after failure" *)
  end.

(** mod.rs 2640-2653 *)
Definition new_parser (h : hooks) (x : X) : parser :=
  mkParser 0 [mkEntry 0 0 (h_unit h)] x Normal [].

(** mod.rs 2654-2657 *)
Definition end_of_input (fuel : nat) (t : tables) (h : hooks) (p : parser) : res (R * X) :=
  rbind (parse_token fuel t h p 0 (h_unit h)) (fun _ p1 =>
    match ps_status p1 with
    | Accepted r => ROk (r, ps_extra p1) p1
    | _ => RPanic                                     (* "accepted without data" *)
    end).

(** Feeding a list of tokens (major, minor) with parse(), stopping at the first Err. *)
Fixpoint parse_all (fuel : nat) (t : tables) (h : hooks) (p : parser) (ts : list (nat * M))
  : res unit :=
  match ts with
  | [] => ROk tt p
  | (a, b) :: ts' => rbind (parse_token fuel t h p a b) (fun _ p1 => parse_all fuel t h p1 ts')
  end.

(** A whole use of the parser: new, parse for each token, end_of_input. *)
Definition run (fuel : nat) (t : tables) (h : hooks) (x : X) (ts : list (nat * M)) : res (R * X) :=
  rbind (parse_all fuel t h (new_parser h x) ts) (fun _ p => end_of_input fuel t h p).
End Machine.

Arguments hooks : clear implicits.
Arguments entry : clear implicits.
Arguments status : clear implicits.
Arguments parser : clear implicits.
Arguments res : clear implicits.
Arguments ROk {M X E R A} a p.
Arguments RErr {M X E R A} e p.
Arguments RPanic {M X E R A}.
Arguments RFuel {M X E R A}.
