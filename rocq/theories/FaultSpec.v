(** The faults of a grammar: for every error the macro can report, what must be wrong with the
    declarations.  Written in terms of the declarations, and for the two errors about the
    automaton in terms of the items of the declared grammar; of the functions of the generator
    only those that write this grammar down appear here, in [written]. *)
From Verif Require Import Base Syntax FrontEnd Spec BuildFacts DeclSpec DeclMore GramFacts TypeFacts TypeDecl.
Open Scope string_scope. Open Scope nat_scope. Open Scope list_scope.

(** A declaration that may be given once is given twice. *)
Definition twice (k : nat) (ds : list decl) : Prop := exists i j d e, i < j /\
  nth_error ds i = Some d /\ nth_error ds j = Some e /\ single_kind d = Some k /\ single_kind e = Some k.
(** An element of a right-hand side *)
Definition has_elem (ds : list decl) (e : rhs_elem) : Prop := exists r, In r (rules_in ds) /\ In e (d_rhs r).
Definition no_token (n : ident) : Prop := is_terminal_ident n = false.

(** Does an element carry data, going by the declarations before %default_type? *)
Definition elem_typed (ds : list decl) (e : rhs_elem) : bool :=
  match e with
  | ([n], true, _) => true
  | ([n], false, _) => opt_is_some (raw_type ds n)
  | _ => false
  end.
(** Without a block the only typed element is handed on. *)
Definition hands_on (ds : list decl) (r : drule) : Prop :=
  (forall e, In e (d_rhs r) -> alias_of e = false) /\ List.length (filter (elem_typed ds) (d_rhs r)) = 1.
(** The rule reads the value of the element: through an alias, to make an optional value, or to
    hand it on. *)
Definition reads (ds : list decl) (r : drule) (e : rhs_elem) : Prop :=
  alias_of e = true \/ (exists n al, e = ([n], true, al)) \/ d_code r = None /\ raw_type ds (d_lhs r) <> None /\ elem_typed ds e = true.
(** The tokens an element may be, if it is a class or alternatives *)
Definition choices (ds : list decl) (e : rhs_elem) : option (list ident) :=
  match e with ([n], _, _) => class_of ds n | (ns, _, _) => Some ns end.
(** and the type its value is given: that of its first token *)
Definition choice_type (ds : list decl) (e : rhs_elem) : option ty :=
  match e with ([n], _, _) => name_type ds n | (m :: _, _, _) => orelse (name_type ds m) (default_type_of ds) | _ => None end.

(** ** What a state would do: [gamma] has been read, [a] comes next. *)
(** Two strings of symbols that lead to the same items, and so to the same state *)
Definition alike (g : grammar) (gamma gamma' : list nat) : Prop := forall r d, lr0 g gamma r d <-> lr0 g gamma' r d.
Inductive move := MShift (X : nat) | MReduce (r : nat).
Inductive offers (g : grammar) (gamma : list nat) (a : nat) : move -> Prop :=
| of_shift r ru d X al : lr0 g gamma r d -> nth_error (g_rules g) r = Some ru -> nth_error (r_rhs ru) d = Some (X, al) ->
    member g a X -> offers g gamma a (MShift X)
| of_reduce gamma' r ru : alike g gamma gamma' -> nth_error (g_rules g) r = Some ru ->
    lr1 g gamma' r (List.length (r_rhs ru)) a -> a < g_nterm g -> offers g gamma a (MReduce r).

(** The precedence that speaks for a move *)
Definition says_prec (g : grammar) (a : nat) (m : move) : option (nat * assoc) :=
  match m with MShift _ => sy_prec (gsym g a) | MReduce r => r_prec (grule g r) end.
(** A move of a higher precedence than [i] that is looked at before rule [k]: shifting, or
    reducing a rule given earlier *)
Definition outranked (g : grammar) (gamma : list nat) (a i k : nat) : Prop := exists m j v, offers g gamma a m /\
  says_prec g a m = Some (j, v) /\ i < j /\ match m with MShift _ => True | MReduce q => q < k end.
(** Nothing decides between two moves: both shift, one has no precedence, or two reductions are
    of the same %nonassoc line and neither has been ruled out when they meet. *)
Definition open_choice (g : grammar) (gamma : list nat) (a : nat) (m m' : move) : Prop :=
  match m, m' with
  | MShift _, MShift _ => True
  | MReduce r, MReduce q => says_prec g a m = None \/ says_prec g a m' = None \/
      exists i, says_prec g a m = Some (i, ANone) /\ says_prec g a m' = Some (i, ANone) /\ ~ outranked g gamma a i (Nat.max r q)
  | _, _ => says_prec g a m = None \/ says_prec g a m' = None
  end.
(** The reduction of [r] is preferred to another move: it has more precedence, or the same and
    the word %left, %right or %nonassoc decides for it. *)
Definition prefers (g : grammar) (a r : nat) (m : move) : Prop :=
  exists i j u v, r_prec (grule g r) = Some (i, u) /\ says_prec g a m = Some (j, v) /\
    (j < i \/ i = j /\ match m with
                       | MShift _ => v <> ARight
                       | MReduce q => q < r /\ v = ALeft \/ r < q /\ u = ARight
                       end).

(** A conflict: two moves that precedence does not decide between, or a class or alternatives
    listing a token twice. *)
Definition conflict_at (g : grammar) (gamma : list nat) (a : nat) : Prop :=
  (exists m m', offers g gamma a m /\ offers g gamma a m' /\ m <> m' /\ open_choice g gamma a m m') \/
  (exists X ms, offers g gamma a (MShift X) /\ kind_at g X = Some (KMulti ms) /\ 2 <= count_occ Nat.eq_dec ms a).
Definition conflicting (g : grammar) : Prop := exists gamma a, conflict_at g gamma a.
(** Two shifts of the same token compete, or a class lists the token twice, and the shift leads
    back to the state it starts from. *)
Definition looping_shift (g : grammar) : Prop := exists gamma a X Y, offers g gamma a (MShift X) /\ offers g gamma a (MShift Y) /\
  alike g gamma (gamma ++ [X]) /\ (X <> Y \/ exists ms, kind_at g X = Some (KMulti ms) /\ 2 <= count_occ Nat.eq_dec ms a).
(** A rule is lost: wherever it could be reduced, another move is there that it is not
    preferred to. *)
Definition lost (g : grammar) (r : nat) : Prop := r < List.length (g_rules g) /\
  forall gamma a, offers g gamma a (MReduce r) -> exists m, offers g gamma a m /\ m <> MReduce r /\ ~ prefers g a r m.

(** The grammar that is written down for the declarations: the symbols and rules that [declared]
    describes, numbered as in mod.rs 599-756 for some order of the hash map of optional symbols. *)
Definition front (ord : list (nat * nat) -> list (nat * nat)) (ds : list decl) (g : grammar) : Prop :=
  exists fuel f g0, new_from_decls fuel ds = GOk f /\ prepare ord f = GOk g0 /\ normalize_rules (find_rule_precedences g0) = GOk g.
Definition written (ds : list decl) (g : grammar) : Prop := (exists ord, hash_order ord /\ front ord ds g) /\ exists opts, declared ds g opts.

(** No shift that competes with another leads back to its own state. *)
Definition shifts_leave (ds : list decl) : Prop := forall g, written ds g -> ~ looping_shift g.

(** ** The fault behind each error *)
Definition fault (ds : list decl) (e : gerr) : Prop :=
  match e with
  | EAlreadySyntaxError => twice 0 ds | EAlreadyParseFail => twice 1 ds | EAlreadyStackOverflow => twice 2 ds
  | EDefaultTypeDup => twice 3 ds | EExtraArgDup => twice 4 ds | EErrorTypeDup => twice 5 ds
  | EStartDup => twice 6 ds | EWildDup => twice 7 ds | ETokenDup => twice 8 ds | EParserDup => twice 9 ds
  | EExtraTokenDup => twice 10 ds
  | EStackSizeDup => exists l1 n t l2 m u, ds = l1 ++ DStackSize n t :: l2 /\ In (DStackSize m (Some u)) l1
  | EAttrs => exists k n t, In (DType k n t) ds /\ 0 < k /\ no_token n
  | EBadIdent => exists n, no_token n /\ is_nonterminal_ident n = false /\
      ((exists k t, In (DType k n t) ds) \/ exists o al, has_elem ds ([n], o, al))
  | ETypeDup => exists l1 k n t l2, ds = l1 ++ DType k n t :: l2 /\ type_of l1 n <> None
  | EPrecNonTerm => exists a ids n, In (DAssoc a ids) ds /\ In n ids /\ no_token n
  | EPrecDup => exists l1 a ids l2, ds = l1 ++ DAssoc a ids :: l2 /\ (~ NoDup ids \/ exists n, In n ids /\ assoc_of l1 n <> None)
  | EStartTerm => exists n, In (DStartSymbol n) ds /\ is_nonterminal_ident n = false
  | EFallbackIds => exists fb ids n, In (DFallback fb ids) ds /\ In n ids /\ no_token n
  | EFallbackTok => exists fb ids, In (DFallback fb ids) ds /\ no_token fb
  | EFallbackDup => exists l1 fb ids l2, ds = l1 ++ DFallback fb ids :: l2 /\ (~ NoDup ids \/ exists n, In n ids /\ fallback_of l1 n <> None)
  | EFallbackLoop => exists l1 fb ids l2 b n, ds = l1 ++ DFallback fb ids :: l2 /\ fallback_of l1 fb = Some b /\ falls l1 b n /\ In n ids
  | EWildTok => exists n, In (DWildcard n) ds /\ no_token n
  | EClassTok => exists n ids, In (DTokenClass n ids) ds /\ no_token n
  | EClassIds => exists c ids n, In (DTokenClass c ids) ds /\ In n ids /\ no_token n
  | ELhs => exists r, In r (rules_in ds) /\ is_nonterminal_ident (d_lhs r) = false
  | ECompound => exists ns o al n, has_elem ds (ns, o, al) /\ 2 <= List.length ns /\ In n ns /\ no_token n
  | EPrecSym => exists r n, In r (rules_in ds) /\ d_prec r = Some n /\ no_token n
  | ENoRules => rules_in ds = []
  | ETypedNoCode => exists r, In r (rules_in ds) /\ d_code r = None /\ raw_type ds (d_lhs r) <> None /\ ~ hands_on ds r
  | EStartRhs => exists n o al, start_of ds = Some n /\ has_elem ds ([n], o, al)
  | ENtNoRules => exists n o al, has_elem ds ([n], o, al) /\ is_nonterminal_ident n = true /\ n <> "error" /\
      forall r, In r (rules_in ds) -> d_lhs r <> n
  | ENotReduced => exists g r, written ds g /\ lost g r
  | EConflicts => exists g, written ds g /\ conflicting g
  | EWildType => exists w, wildcard_of ds = Some w /\ raw_type ds w <> None
  | ETokenNotEmpty => exists n gs, In (DToken n gs) ds /\ n <> 0
  | EParserNotEmpty => exists n gs, In (DParser n gs) ds /\ n <> 0
  | EGenerics => exists n gs m hs x, In (DToken n gs) ds /\ In (DParser m hs) ds /\ In x gs /\ ~ In x hs
  | EFallbackType => exists a c, fallback_of ds a = Some c /\ name_type ds c <> None /\ name_type ds a <> name_type ds c
  | ECompoundAlias => exists r e m ms n, In r (rules_in ds) /\ In e (d_rhs r) /\ reads ds r e /\ choices ds e = Some (m :: ms) /\ In n ms /\
      name_type ds n <> choice_type ds e
  | EWildAlias => exists w o al, wildcard_of ds = Some w /\ has_elem ds ([w], o, al) /\ (o = true \/ al <> None)
  end.
