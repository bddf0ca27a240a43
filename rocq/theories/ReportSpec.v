(** The report of the states (C47): what its lines say. *)
From Coq Require Import DecimalString.
From Verif Require Import Base Syntax FrontEnd Spec BuildFacts DeclSpec DeclMore GramFacts FaultSpec Report.
Open Scope string_scope. Open Scope nat_scope. Open Scope list_scope.

(** The words of a line *)
Definition add_word (w : string) (l : list string) : list string := if String.eqb w "" then l else w :: l.
Fixpoint words_from (w s : string) : list string :=
  match s with
  | "" => add_word w []
  | String c s => if Ascii.eqb c " " then add_word w (words_from "" s) else words_from (w +++ String c "") s
  end.
Definition words (s : string) : list string := words_from "" s.
Fixpoint spaceless (s : string) : Prop := match s with "" => True | String c s => c <> " "%char /\ spaceless s end.
(** The names that are written are Rust identifiers. *)
Definition names_spaceless (ds : list decl) : Prop := forall n, mentions ds n -> spaceless n.

(** An item of a rule: the rule with a star where the parser is, and in front the number of the
    rule if it can be reduced; a class or alternatives are shown by their members *)
Definition shown (g : grammar) (X : nat) : list string :=
  match kind_at g X with
  | Some (KMulti []) => []
  | Some (KMulti ms) => [String.concat "|" (map (gname g) ms)]
  | _ => [gname g X]
  end.
Definition item_words (g : grammar) (r d : nat) : list string :=
  let rhs := map fst (r_rhs (grule g r)) in
  (if d =? List.length rhs then ["(" +++ num r +++ ")"] else []) ++ [gname g (r_lhs (grule g r)); "::="] ++
  flat_map (shown g) (firstn d rhs) ++ "*" :: flat_map (shown g) (skipn d rhs).

Definition conflict_mark : list string := ["**"; "Parsing"; "conflict"; "**"].
Definition dropped_mark : list string := ["--"; "dropped"; "by"; "precedence"].
(** Shifting is preferred to reducing [r]. *)
Definition shift_prefers (g : grammar) (a r : nat) : Prop :=
  exists i j u v, r_prec (grule g r) = Some (i, u) /\ sy_prec (gsym g a) = Some (j, v) /\ (i < j \/ i = j /\ v = ARight).
(** Neither is preferred: both are of one %nonassoc line. *)
Definition shift_ties (g : grammar) (a r : nat) : Prop :=
  exists i, r_prec (grule g r) = Some (i, ANone) /\ sy_prec (gsym g a) = Some (i, ANone).

(** Section [k] tells what the parser does after [gamma]; [at_] gives the number of the section
    for each string of symbols. *)
Record describes (g : grammar) (at_ : list nat -> nat -> Prop) (gamma : list nat) (k : section) : Prop := {
  dc_item : forall r d, lr0 g gamma r d -> exists l, In l (k_items k) /\ words l = item_words g r d;
  dc_items : forall l, In l (k_items k) -> exists r d, lr0 g gamma r d /\ words l = item_words g r d;
  (** every line about a token is about a move that is offered, and every such move has a line *)
  dc_line : forall a l w, a < g_nterm g -> In l (k_acts k) -> words l = gname g a :: w ->
    (exists r m, w = "reduce" :: num r :: m /\ offers g gamma a (MReduce r) /\ (m = [] \/ m = conflict_mark \/ m = dropped_mark)) \/
    (exists X t m, w = "shift" :: num t :: m /\ offers g gamma a (MShift X) /\ at_ (gamma ++ [X]) t /\ (m = [] \/ m = conflict_mark \/ m = dropped_mark)) \/
    (w = ["error"] /\ exists X r, offers g gamma a (MShift X) /\ offers g gamma a (MReduce r) /\ shift_ties g a r);
  dc_reduce : forall a r, offers g gamma a (MReduce r) -> exists l m, In l (k_acts k) /\ words l = gname g a :: "reduce" :: num r :: m;
  dc_shift : forall a X t, offers g gamma a (MShift X) -> at_ (gamma ++ [X]) t -> exists l m, In l (k_acts k) /\
    (words l = gname g a :: "shift" :: num t :: m \/ words l = [gname g a; "error"] /\ exists r, offers g gamma a (MReduce r) /\ shift_ties g a r);
  (** marked are exactly the conflicts *)
  dc_mark : forall a, a < g_nterm g -> (exists l w n, In l (k_acts k) /\ words l = gname g a :: w :: n :: conflict_mark) <-> conflict_at g gamma a;
  (** without a conflict the lines without a mark are the moves that are preferred to all others *)
  dc_wins : forall a r, a < g_nterm g -> ~ conflict_at g gamma a -> (exists l, In l (k_acts k) /\ words l = [gname g a; "reduce"; num r]) <->
    offers g gamma a (MReduce r) /\ forall m, offers g gamma a m -> m <> MReduce r -> prefers g a r m;
  dc_shifts : forall a X t, ~ conflict_at g gamma a -> offers g gamma a (MShift X) -> at_ (gamma ++ [X]) t ->
    (exists l, In l (k_acts k) /\ words l = [gname g a; "shift"; num t]) <-> forall r, offers g gamma a (MReduce r) -> shift_prefers g a r;
  (** what to do after a rule is reduced *)
  dc_goto : forall X t, kind_at g X = Some KNonTerm -> X <> g_start g ->
    (exists l, In l (k_acts k) /\ words l = [gname g X; "shift"; num t]) <-> (exists r ru d al, lr0 g gamma r d /\ nth_error (g_rules g) r = Some ru /\ nth_error (r_rhs ru) d = Some (X, al)) /\ at_ (gamma ++ [X]) t;
  dc_accept : (exists l, In l (k_acts k) /\ words l = [gname g (g_start g); "accept"]) <-> gamma = [] }.

(** The sections of a report: one for each state, with its number *)
Record explains (g : grammar) (ks : list section) (at_ : list nat -> nat -> Prop) : Prop := {
  xp_one : forall gamma, (exists r d, lr0 g gamma r d) <-> exists n, at_ gamma n;
  xp_fun : forall gamma n m, at_ gamma n -> at_ gamma m -> n = m;
  xp_alike : forall gamma gamma' n, at_ gamma n -> at_ gamma' n <-> alike g gamma gamma' /\ exists m, at_ gamma' m;
  xp_every : forall n, n < List.length ks -> exists gamma, at_ gamma n;
  xp_section : forall gamma n, at_ gamma n -> exists k, nth_error ks n = Some k /\ k_head k = "State " +++ num n +++ ":" /\ describes g at_ gamma k }.

(** The list of the symbols at the end: two lines of heading, then for each symbol its number and
    its name *)
Definition lists_symbols (g : grammar) (l : list string) : Prop :=
  exists h1 h2 rest, l = h1 :: h2 :: rest /\ List.length rest = List.length (g_syms g) /\
    forall X, X < List.length (g_syms g) -> exists s, nth_error rest X = Some s /\ words s = (num X +++ ":") :: add_word (gname g X) [].
