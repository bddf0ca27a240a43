(** The front end of the generator: symbol table, declarations, desugaring of
    optional symbols, symbol numbering, rule precedences, automatic blocks.
    mod.rs 521-756 and 1676-2081. *)
From Coq Require Import DecimalString.
From Verif Require Import Base Syntax.

(** mod.rs 27-28; the number of the %left/%right/%nonassoc line. *)
Definition prec := (nat * assoc)%type.

(** mod.rs 70-78.  The list of rules of a NonTerminal is not stored: it is always
    the rules with that left-hand side in creation order ([create_rule], 2075-2076),
    see [rules_of].  [first_set] and [lambda] are computed in First.v. *)
Inductive kind := KTerm | KNonTerm | KMulti (members : list nat).

(** mod.rs 82-92.  [index] and [dt_num] are computed by [prepare] and in Types.v. *)
Record symbol := mkSym {
  sy_name : string;
  sy_kind : kind;
  sy_fb : option nat;
  sy_prec : option prec;
  sy_use : nat;
  sy_type : option ty;
  sy_attrs : nat }.

(** What the block of a rule is.  [CUser]: a block of the user.  [COptNone]/[COptSome]:
    the blocks generated for optional symbols (mod.rs 670, 679).  [CAuto]: the
    block { _A } of [normalize_rules] (745).  [CAbsent]: no block. *)
Inductive rcode := CAbsent | CUser (c : code) | COptNone | COptSome | CAuto.

(** mod.rs 57-67.  A right-hand-side element is a symbol and whether it has an alias.
    [index] is the position in the rule list; [lhs_start] and [can_reduce] are
    derived where they are used. *)
Record rule := mkRule {
  r_lhs : nat;
  r_rhs : list (nat * bool);
  r_code : rcode;
  r_precsym : option nat;
  r_prec : option prec }.

(** mod.rs 234-264, the part that exists before [build].  Symbol ids are
    positions in [f_syms] (creation order).  [f_opt] is the HashMap
    optional_tokens, in insertion order. *)
Record fe := mkFe {
  f_syms : list symbol;
  f_rules : list rule;
  f_wild : option nat;
  f_arg : option ty;
  f_err : option ty;
  f_has_fb : bool;
  f_default_type : option ty;
  f_start : option nat;
  f_opt : list (nat * nat);
  f_extra_token : option ty;
  f_stack_type : option ty;
  f_stack_limit : nat;
  f_syntax_error : option code;
  f_parse_fail : option code;
  f_stack_overflow : option code;
  f_token : option (nat * list string);
  f_parser : option (nat * list string);
  f_prec : nat }.

Definition set_syms (f : fe) (l : list symbol) : fe :=
  mkFe l (f_rules f) (f_wild f) (f_arg f) (f_err f) (f_has_fb f) (f_default_type f)
    (f_start f) (f_opt f) (f_extra_token f) (f_stack_type f) (f_stack_limit f)
    (f_syntax_error f) (f_parse_fail f) (f_stack_overflow f) (f_token f) (f_parser f) (f_prec f).
Definition set_rules (f : fe) (l : list rule) : fe :=
  mkFe (f_syms f) l (f_wild f) (f_arg f) (f_err f) (f_has_fb f) (f_default_type f)
    (f_start f) (f_opt f) (f_extra_token f) (f_stack_type f) (f_stack_limit f)
    (f_syntax_error f) (f_parse_fail f) (f_stack_overflow f) (f_token f) (f_parser f) (f_prec f).
Definition set_wild (f : fe) (w : option nat) : fe :=
  mkFe (f_syms f) (f_rules f) w (f_arg f) (f_err f) (f_has_fb f) (f_default_type f)
    (f_start f) (f_opt f) (f_extra_token f) (f_stack_type f) (f_stack_limit f)
    (f_syntax_error f) (f_parse_fail f) (f_stack_overflow f) (f_token f) (f_parser f) (f_prec f).
Definition set_arg (f : fe) (w : option ty) : fe :=
  mkFe (f_syms f) (f_rules f) (f_wild f) w (f_err f) (f_has_fb f) (f_default_type f)
    (f_start f) (f_opt f) (f_extra_token f) (f_stack_type f) (f_stack_limit f)
    (f_syntax_error f) (f_parse_fail f) (f_stack_overflow f) (f_token f) (f_parser f) (f_prec f).
Definition set_err (f : fe) (w : option ty) : fe :=
  mkFe (f_syms f) (f_rules f) (f_wild f) (f_arg f) w (f_has_fb f) (f_default_type f)
    (f_start f) (f_opt f) (f_extra_token f) (f_stack_type f) (f_stack_limit f)
    (f_syntax_error f) (f_parse_fail f) (f_stack_overflow f) (f_token f) (f_parser f) (f_prec f).
Definition set_has_fb (f : fe) (w : bool) : fe :=
  mkFe (f_syms f) (f_rules f) (f_wild f) (f_arg f) (f_err f) w (f_default_type f)
    (f_start f) (f_opt f) (f_extra_token f) (f_stack_type f) (f_stack_limit f)
    (f_syntax_error f) (f_parse_fail f) (f_stack_overflow f) (f_token f) (f_parser f) (f_prec f).
Definition set_default_type (f : fe) (w : option ty) : fe :=
  mkFe (f_syms f) (f_rules f) (f_wild f) (f_arg f) (f_err f) (f_has_fb f) w
    (f_start f) (f_opt f) (f_extra_token f) (f_stack_type f) (f_stack_limit f)
    (f_syntax_error f) (f_parse_fail f) (f_stack_overflow f) (f_token f) (f_parser f) (f_prec f).
Definition set_start (f : fe) (w : option nat) : fe :=
  mkFe (f_syms f) (f_rules f) (f_wild f) (f_arg f) (f_err f) (f_has_fb f) (f_default_type f)
    w (f_opt f) (f_extra_token f) (f_stack_type f) (f_stack_limit f)
    (f_syntax_error f) (f_parse_fail f) (f_stack_overflow f) (f_token f) (f_parser f) (f_prec f).
Definition set_opt (f : fe) (w : list (nat * nat)) : fe :=
  mkFe (f_syms f) (f_rules f) (f_wild f) (f_arg f) (f_err f) (f_has_fb f) (f_default_type f)
    (f_start f) w (f_extra_token f) (f_stack_type f) (f_stack_limit f)
    (f_syntax_error f) (f_parse_fail f) (f_stack_overflow f) (f_token f) (f_parser f) (f_prec f).
Definition set_extra_token (f : fe) (w : option ty) : fe :=
  mkFe (f_syms f) (f_rules f) (f_wild f) (f_arg f) (f_err f) (f_has_fb f) (f_default_type f)
    (f_start f) (f_opt f) w (f_stack_type f) (f_stack_limit f)
    (f_syntax_error f) (f_parse_fail f) (f_stack_overflow f) (f_token f) (f_parser f) (f_prec f).
Definition set_stack (f : fe) (n : nat) (w : option ty) : fe :=
  mkFe (f_syms f) (f_rules f) (f_wild f) (f_arg f) (f_err f) (f_has_fb f) (f_default_type f)
    (f_start f) (f_opt f) (f_extra_token f) w n
    (f_syntax_error f) (f_parse_fail f) (f_stack_overflow f) (f_token f) (f_parser f) (f_prec f).
Definition set_hooks (f : fe) (a b c : option code) : fe :=
  mkFe (f_syms f) (f_rules f) (f_wild f) (f_arg f) (f_err f) (f_has_fb f) (f_default_type f)
    (f_start f) (f_opt f) (f_extra_token f) (f_stack_type f) (f_stack_limit f)
    a b c (f_token f) (f_parser f) (f_prec f).
Definition set_items (f : fe) (a b : option (nat * list string)) : fe :=
  mkFe (f_syms f) (f_rules f) (f_wild f) (f_arg f) (f_err f) (f_has_fb f) (f_default_type f)
    (f_start f) (f_opt f) (f_extra_token f) (f_stack_type f) (f_stack_limit f)
    (f_syntax_error f) (f_parse_fail f) (f_stack_overflow f) a b (f_prec f).
Definition set_precno (f : fe) (n : nat) : fe :=
  mkFe (f_syms f) (f_rules f) (f_wild f) (f_arg f) (f_err f) (f_has_fb f) (f_default_type f)
    (f_start f) (f_opt f) (f_extra_token f) (f_stack_type f) (f_stack_limit f)
    (f_syntax_error f) (f_parse_fail f) (f_stack_overflow f) (f_token f) (f_parser f) n.

(** mod.rs 21-25 *)
Inductive nst := NTerm | NNonTerm | NMulti.

Definition dummy_sym : symbol := mkSym "" KTerm None None 0 None 0.
Definition get_sym (f : fe) (i : nat) : symbol := nth i (f_syms f) dummy_sym.

Definition sym_set_kind (k : kind) (s : symbol) : symbol :=
  mkSym (sy_name s) k (sy_fb s) (sy_prec s) (sy_use s) (sy_type s) (sy_attrs s).
Definition sym_set_fb (x : option nat) (s : symbol) : symbol :=
  mkSym (sy_name s) (sy_kind s) x (sy_prec s) (sy_use s) (sy_type s) (sy_attrs s).
Definition sym_set_prec (x : option prec) (s : symbol) : symbol :=
  mkSym (sy_name s) (sy_kind s) (sy_fb s) x (sy_use s) (sy_type s) (sy_attrs s).
Definition sym_incr_use (s : symbol) : symbol :=
  mkSym (sy_name s) (sy_kind s) (sy_fb s) (sy_prec s) (S (sy_use s)) (sy_type s) (sy_attrs s).
Definition sym_set_type (x : option ty) (s : symbol) : symbol :=
  mkSym (sy_name s) (sy_kind s) (sy_fb s) (sy_prec s) (sy_use s) x (sy_attrs s).
Definition sym_set_attrs (x : nat) (s : symbol) : symbol :=
  mkSym (sy_name s) (sy_kind s) (sy_fb s) (sy_prec s) (sy_use s) (sy_type s) x.

Definition kind_of_nst (t : nst) : kind :=
  match t with NTerm => KTerm | NNonTerm => KNonTerm | NMulti => KMulti [] end.

(** mod.rs 1686-1730 *)
Definition symbol_new (f : fe) (name : string) (t : nst) : gres (nat * fe) :=
  match (if String.eqb name "" then None
         else position (fun s => String.eqb (sy_name s) name) (f_syms f)) with
  | Some i =>
      let l := upd (f_syms f) i sym_incr_use in
      match t, sy_kind (get_sym f i) with
      | NMulti, KTerm => GOk (i, set_syms f (upd l i (sym_set_kind (KMulti []))))
      | NMulti, KNonTerm => GPanic (* unreachable!(), 1699 *)
      | _, _ => GOk (i, set_syms f l)
      end
  | None =>
      GOk (List.length (f_syms f),
           set_syms f (f_syms f ++ [mkSym name (kind_of_nst t) None None 1 None 0]))
  end.

(** mod.rs 2052-2081.  The unreachable!() there (left-hand side not a NonTerminal)
    is kept as a panic. *)
Definition create_rule (f : fe) (lhs : nat) (rhs : list (nat * bool)) (c : rcode)
    (ps : option nat) : gres fe :=
  match sy_kind (get_sym f lhs) with
  | KNonTerm => GOk (set_rules f (f_rules f ++ [mkRule lhs rhs c ps None]))
  | _ => GPanic
  end.

Definition opt_is_some {A} (o : option A) : bool :=
  match o with Some _ => true | None => false end.

(** format!("_{}", n), mod.rs 2001 *)
Definition optional_name (n : nat) : string :=
  String.append "_" (NilEmpty.string_of_uint (Nat.to_uint n)).

(** One element of a right-hand side: mod.rs 1982-2032 *)
Definition rhs_elem_sym (f : fe) (e : rhs_elem) : gres ((nat * bool) * fe) :=
  let '(toks, optional, alias) := e in
  match toks with
  | [] => GPanic (* toks[0] would be out of range; the macro's parser never yields this *)
  | [tok] =>
      t <-! (if is_terminal_ident tok then GOk NTerm
             else if is_nonterminal_ident tok then GOk NNonTerm
             else GErr EBadIdent) ;
      if optional then
        '(sym_r, f1) <-! symbol_new f tok t ;
        match find (fun p => Nat.eqb (fst p) sym_r) (f_opt f1) with
        | Some (_, sym_l) => GOk ((sym_l, opt_is_some alias), f1)
        | None =>
            '(sym_l, f2) <-! symbol_new f1 (optional_name (List.length (f_opt f1))) NNonTerm ;
            GOk ((sym_l, opt_is_some alias), set_opt f2 (f_opt f2 ++ [(sym_r, sym_l)]))
        end
      else
        '(s, f1) <-! symbol_new f tok t ;
        GOk ((s, opt_is_some alias), f1)
  | _ =>
      '(mt, f1) <-! symbol_new f "" NMulti ;
      '(ss, f2) <-! gfold (fun '(ss, f) tok =>
                  if is_terminal_ident tok then
                    '(s, f') <-! symbol_new f tok NTerm ; GOk (ss ++ [s], f')
                  else GErr ECompound) toks ([], f1) ;
      match sy_kind (get_sym f2 mt) with
      | KMulti m => GOk ((mt, opt_is_some alias),
                        set_syms f2 (upd (f_syms f2) mt (sym_set_kind (KMulti (m ++ ss)))))
      | _ => GPanic (* unreachable!(), 2027 *)
      end
  end.

(** The loop check of %fallback: mod.rs 1878-1896 *)
Fixpoint fallback_check (fuel : nat) (f : fe) (syms : list nat) (fb : nat) : gres unit :=
  match fuel with
  | 0 => GFuel
  | S n =>
      match sy_fb (get_sym f fb) with
      | None => GOk tt
      | Some nx => if smem nx syms then GErr EFallbackLoop else fallback_check n f syms nx
      end
  end.

(** mod.rs 1753-2050.  [fuel] bounds the fallback loop check only. *)
Definition parse_one_decl (fuel : nat) (f : fe) (d : decl) : gres fe :=
  match d with
  | DModule _ | DInclude _ | DVerbose => GOk f
  | DSyntaxError c =>
      if opt_is_some (f_syntax_error f) then GErr EAlreadySyntaxError
      else GOk (set_hooks f (Some c) (f_parse_fail f) (f_stack_overflow f))
  | DParseFail c =>
      if opt_is_some (f_parse_fail f) then GErr EAlreadyParseFail
      else GOk (set_hooks f (f_syntax_error f) (Some c) (f_stack_overflow f))
  | DStackOverflow c =>
      if opt_is_some (f_stack_overflow f) then GErr EAlreadyStackOverflow
      else GOk (set_hooks f (f_syntax_error f) (f_parse_fail f) (Some c))
  | DType nattrs id t =>
      k <-! (if is_terminal_ident id then GOk NTerm
             else if is_nonterminal_ident id then
               if 0 <? nattrs then GErr EAttrs else GOk NNonTerm
             else GErr EBadIdent) ;
      '(s, f1) <-! symbol_new f id k ;
      if opt_is_some (sy_type (get_sym f1 s)) then GErr ETypeDup
      else GOk (set_syms f1 (upd (f_syms f1) s
                  (fun y => sym_set_attrs nattrs (sym_set_type t y))))
  | DAssoc a ids =>
      let f0 := set_precno f (S (f_prec f)) in
      gfold (fun f tok =>
        if is_terminal_ident tok then
          '(s, f1) <-! symbol_new f tok NTerm ;
          if opt_is_some (sy_prec (get_sym f1 s)) then GErr EPrecDup
          else GOk (set_syms f1 (upd (f_syms f1) s (sym_set_prec (Some (f_prec f1, a)))))
        else GErr EPrecNonTerm) ids f0
  | DDefaultType t =>
      if opt_is_some (f_default_type f) then GErr EDefaultTypeDup
      else GOk (set_default_type f (Some t))
  | DExtraArgument t =>
      if opt_is_some (f_arg f) then GErr EExtraArgDup else GOk (set_arg f (Some t))
  | DError t =>
      if opt_is_some (f_err f) then GErr EErrorTypeDup else GOk (set_err f (Some t))
  | DStartSymbol id =>
      if opt_is_some (f_start f) then GErr EStartDup
      else if is_nonterminal_ident id then
        '(s, f1) <-! symbol_new f id NNonTerm ; GOk (set_start f1 (Some s))
      else GErr EStartTerm
  | DFallback fb ids =>
      '(syms, f1) <-! gfold (fun '(syms, f) id =>
          if is_terminal_ident id then
            '(s, f') <-! symbol_new f id NTerm ; GOk (syms ++ [s], f')
          else GErr EFallbackIds) ids ([], f) ;
      if is_terminal_ident fb then
        '(fbs, f2) <-! symbol_new f1 fb NTerm ;
        _ <-! fallback_check fuel f2 syms fbs ;
        gfold (fun f s =>
          if opt_is_some (sy_fb (get_sym f s)) then GErr EFallbackDup
          else GOk (set_has_fb (set_syms f (upd (f_syms f) s (sym_set_fb (Some fbs)))) true))
          syms f2
      else GErr EFallbackTok
  | DWildcard id =>
      if opt_is_some (f_wild f) then GErr EWildDup
      else if is_terminal_ident id then
        '(s, f1) <-! symbol_new f id NTerm ; GOk (set_wild f1 (Some s))
      else GErr EWildTok
  | DTokenClass tk ids =>
      if is_terminal_ident tk then
        '(c, f1) <-! symbol_new f tk NMulti ;
        gfold (fun f id =>
          if is_terminal_ident id then
            '(s, f') <-! symbol_new f id NTerm ;
            match sy_kind (get_sym f' c) with
            | KMulti m => GOk (set_syms f' (upd (f_syms f') c (sym_set_kind (KMulti (m ++ [s])))))
            | _ => GPanic (* unreachable!(), 1935 *)
            end
          else GErr EClassIds) ids f1
      else GErr EClassTok
  | DToken n gs =>
      if opt_is_some (f_token f) then GErr ETokenDup
      else GOk (set_items f (Some (n, gs)) (f_parser f))
  | DParser n gs =>
      if opt_is_some (f_parser f) then GErr EParserDup
      else GOk (set_items f (f_token f) (Some (n, gs)))
  | DExtraToken t =>
      if opt_is_some (f_extra_token f) then GErr EExtraTokenDup
      else GOk (set_extra_token f (Some t))
  | DStackSize n t =>
      if opt_is_some (f_stack_type f) then GErr EStackSizeDup
      else GOk (set_stack f n t)
  | DRule lhs rhs action prec =>
      if is_nonterminal_ident lhs then
        '(l, f1) <-! symbol_new f lhs NNonTerm ;
        '(r, f2) <-! gfold (fun '(r, f) e =>
             '(x, f') <-! rhs_elem_sym f e ; GOk (r ++ [x], f')) rhs ([], f1) ;
        '(ps, f3) <-! match prec with
          | Some id =>
              if is_terminal_ident id then
                '(s, f') <-! symbol_new f2 id NTerm ; GOk (Some s, f')
              else GErr EPrecSym
          | None => GOk (None, f2)
          end ;
        create_rule f3 l r (match action with Some c => CUser c | None => CAbsent end) ps
      else GErr ELhs
  end.

(** mod.rs 522-557: "$" is symbol 0 and "error" symbol 1. *)
Definition fe_init : fe :=
  mkFe [mkSym "$" KTerm None None 1 None 0; mkSym "error" KNonTerm None None 1 None 0]
    [] None None None false None None [] None None 100 None None None None None 0.

(** mod.rs 521-570 *)
Definition new_from_decls (fuel : nat) (ds : list decl) : gres fe :=
  f <-! gfold (parse_one_decl fuel) ds fe_init ;
  '(_, f1) <-! symbol_new f "{default}" NNonTerm ;
  match f_rules f1 with [] => GErr ENoRules | _ => GOk f1 end.

(** The grammar handed to the back end.  From here on symbols are denoted by
    their [index] (mod.rs 84), i.e. their position in [g_syms]; the code keeps
    using ids and reads [index] where it needs a number, which is the same thing
    because ids and indices are in bijection (theorem C28). *)
Record grammar := mkGr {
  g_syms : list symbol;
  g_rules : list rule;
  g_nterm : nat;            (* num_terminals *)
  g_dflt : nat;             (* default_index *)
  g_start : nat;
  g_error : nat;            (* index of error_symbol *)
  g_wild : option nat;
  g_fe : fe }.              (* the declarations-level data, for %default_type etc. *)

Definition gsym (g : grammar) (i : nat) : symbol := nth i (g_syms g) dummy_sym.
Definition dummy_rule : rule := mkRule 0 [] CAbsent None None.
Definition grule (g : grammar) (i : nat) : rule := nth i (g_rules g) dummy_rule.

(** mod.rs 607-618 *)
Definition kind_ord (k : kind) : nat :=
  match k with KTerm => 0 | KNonTerm => 1 | KMulti _ => 2 end.
Definition symbol_less (f : fe) (a b : nat) : bool :=
  kind_ord (sy_kind (get_sym f a)) <? kind_ord (sy_kind (get_sym f b)).

Definition ren_kind (r : nat -> nat) (k : kind) : kind :=
  match k with KMulti m => KMulti (map r m) | k => k end.
Definition ren_sym (r : nat -> nat) (s : symbol) : symbol :=
  mkSym (sy_name s) (ren_kind r (sy_kind s)) (option_map r (sy_fb s)) (sy_prec s)
    (sy_use s) (sy_type s) (sy_attrs s).
Definition ren_rule (r : nat -> nat) (x : rule) : rule :=
  mkRule (r (r_lhs x)) (map (fun p => (r (fst p), snd p)) (r_rhs x)) (r_code x)
    (option_map r (r_precsym x)) (r_prec x).

(** Position in the sorted list: [index] as set at mod.rs 623. *)
Definition index_of (order : list nat) (id : nat) : nat :=
  match position (Nat.eqb id) order with Some i => i | None => 0 end.

Definition is_kterm (k : kind) : bool := match k with KTerm => true | _ => false end.
Definition is_knonterm (k : kind) : bool := match k with KNonTerm => true | _ => false end.

(** mod.rs 640-648: %extra_token, on the terminals but "$" *)
Definition extra_token_type (f : fe) (order : list nat) (nterm : nat) : fe :=
  match f_extra_token f with
  | None => f
  | Some et =>
      fold_left (fun f i =>
        set_syms f (upd (f_syms f) (nth i order 0) (fun s =>
          sym_set_type (match sy_type s with
                        | None => Some et
                        | Some dt => Some (TyPair et dt)
                        end) s))) (seq 1 (nterm - 1)) f
  end.

(** mod.rs 656-682: the two rules of each optional symbol *)
Definition optional_rules (f : fe) (opts : list (nat * nat)) : gres fe :=
  gfold (fun f '(sym_r, sym_l) =>
    let dt := match sy_type (get_sym f sym_r) with Some t => t | None => TyUnit end in
    let f1 := set_syms f (upd (f_syms f) sym_l (sym_set_type (Some (TyOption dt)))) in
    f2 <-! create_rule f1 sym_l [] COptNone None ;
    create_rule f2 sym_l [(sym_r, true)] COptSome None) opts f.

(** mod.rs 599-683.  [ord] is the iteration order of the HashMap. *)
Definition prepare (ord : list (nat * nat) -> list (nat * nat)) (f : fe) : gres grammar :=
  let order := ssort (symbol_less f) (seq 0 (List.length (f_syms f))) in
  let kinds := map (fun id => sy_kind (get_sym f id)) order in
  let last_terminal := match rposition is_kterm kinds with Some i => i | None => 0 end in
  let default_index := match rposition is_knonterm kinds with Some i => i | None => 0 end in
  let nterm := S last_terminal in
  let start := match f_start f with
               | Some s => s
               | None => r_lhs (nth 0 (f_rules f) dummy_rule)
               end in
  let f1 := extra_token_type f order nterm in
  f2 <-! optional_rules f1 (ord (f_opt f1)) ;
  let r := index_of order in
  GOk (mkGr (map (fun id => ren_sym r (get_sym f2 id)) order)
            (map (ren_rule r) (f_rules f2)) nterm default_index (r start) (r 1)
            (option_map r (f_wild f2)) f2).

(** mod.rs 701-721: the leftmost right-hand-side symbol with a precedence, a
    compound counting as its first member with one *)
Fixpoint first_some {A B} (f : A -> option B) (l : list A) : option B :=
  match l with
  | [] => None
  | a :: l' => match f a with Some b => Some b | None => first_some f l' end
  end.
Definition rhs_sym_prec (g : grammar) (s : nat) : option prec :=
  match sy_kind (gsym g s) with
  | KMulti m => first_some (fun x => sy_prec (gsym g x)) m
  | _ => sy_prec (gsym g s)
  end.

(** mod.rs 694-723.  [prec_sym] itself is not read afterwards except by the
    report, so only the precedence is filled in. *)
Definition rule_precedence (g : grammar) (r : rule) : option prec :=
  match r_precsym r with
  | Some ps => sy_prec (gsym g ps)
  | None => first_some (fun p => rhs_sym_prec g (fst p)) (r_rhs r)
  end.
Definition find_rule_precedences (g : grammar) : grammar :=
  mkGr (g_syms g)
    (map (fun r => mkRule (r_lhs r) (r_rhs r) (r_code r) (r_precsym r) (rule_precedence g r))
       (g_rules g))
    (g_nterm g) (g_dflt g) (g_start g) (g_error g) (g_wild g) (g_fe g).

Definition has_type (g : grammar) (s : nat) : bool := opt_is_some (sy_type (gsym g s)).

(** mod.rs 731-756 *)
Definition normalize_rule (g : grammar) (r : rule) : gres rule :=
  match r_code r with
  | CAbsent =>
      if has_type g (r_lhs r) then
        if forallb (fun p => negb (snd p)) (r_rhs r)
           && (List.length (filter (fun p => has_type g (fst p)) (r_rhs r)) =? 1)
        then GOk (mkRule (r_lhs r)
                    (map (fun p => (fst p, if has_type g (fst p) then true else snd p)) (r_rhs r))
                    CAuto (r_precsym r) (r_prec r))
        else GErr ETypedNoCode
      else GOk r
  | _ => GOk r
  end.
Definition normalize_rules (g : grammar) : gres grammar :=
  rs <-! gfold (fun acc r => r' <-! normalize_rule g r ; GOk (acc ++ [r'])) (g_rules g) [] ;
  GOk (mkGr (g_syms g) rs (g_nterm g) (g_dflt g) (g_start g) (g_error g) (g_wild g) (g_fe g)).

(** [get_non_terminal_rules] (mod.rs 101-106): the rules of a symbol, in order *)
Definition rules_of (g : grammar) (s : nat) : list nat :=
  filter (fun i => r_lhs (grule g i) =? s) (seq 0 (List.length (g_rules g))).
