(** Table packing, data types, static checks and everything else
    [generate_source] emits that the runtime reads.
    mod.rs 342-502, 2083-2555, 2922-3022. *)
From Verif Require Import Base Syntax FrontEnd First States Actions.

(** An entry of the table under construction: Option<(lookahead, action)>. *)
Definition acttab := list (option (nat * nat)).

(** mod.rs 424-432 / 392-400: [ja.lookahead = j + min_lookahead - i], with the
    subtraction moved to the other side *)
Definition aligned (mn i : nat) (je : nat * option (nat * nat)) : bool :=
  match snd je with
  | None => false
  | Some (la, _) => la + i =? fst je + mn
  end.
Definition enum {A} (l : list A) : list (nat * A) := combine (seq 0 (List.length l)) l.

(** mod.rs 357-405: is [i] an exact duplicate of the set? *)
Definition dup_at (tab : acttab) (set : list (nat * nat)) (mn mact : nat) (i : nat) : bool :=
  match nth_error tab i with
  | Some (Some (la, ac)) =>
      (la =? mn) && (ac =? mact)
      && forallb (fun e => match nth_error tab (fst e - mn + i) with
                           | Some (Some (la', ac')) => (fst e =? la') && (snd e =? ac')
                           | _ => false
                           end) set
      && (List.length (filter (aligned mn i) (enum tab)) =? List.length set)
  | _ => false
  end.

(** mod.rs 418-432: may the set be placed at [i]? *)
Definition hole_at (tab : acttab) (set : list (nat * nat)) (mn : nat) (i : nat) : bool :=
  forallb (fun e => match nth_error tab (fst e - mn + i) with
                    | Some (Some _) => false
                    | _ => true
                    end) set
  && negb (existsb (aligned mn i) (enum tab)).

(** [Vec::resize] then assignment, mod.rs 450-453 *)
Definition put (tab : acttab) (k : nat) (e : nat * nat) : acttab :=
  let tab' := tab ++ repeat None (S k - List.length tab) in
  upd tab' k (fun _ => Some e).

(** mod.rs 342-481.  The set is never empty and sorted by lookahead where it is
    called; the assert at 343 is the [] case. *)
Definition insert_action_set (tab : acttab) (set : list (nat * nat)) : gres (Z * acttab) :=
  match set with
  | [] => GPanic
  | (mn, mact) :: _ =>
      let mx := fst (last set (0, 0)) in
      let len := List.length tab in
      let i := match find (dup_at tab set mn mact) (rev (seq 0 len)) with
               | Some i => i
               | None =>
                   match find (hole_at tab set mn) (seq 0 (len + mx)) with
                   | Some i => i
                   | None => len
                   end
               end in
      GOk ((Z.of_nat i - Z.of_nat mn)%Z,
           fold_left (fun tab e => put tab (fst e - mn + i) e) set tab)
  end.

(** mod.rs 484-502, as the number of bits *)
Definition minimum_signed_bits (m : Z) : Z :=
  (if m <? 128 then 8 else if m <? 32768 then 16 else 32)%Z.
Definition minimum_unsigned_bits (m : Z) : Z :=
  (if m <? 256 then 8 else if m <? 65536 then 16 else 32)%Z.

(** ** Data types: mod.rs 2136-2168 *)
Definition typemap := list (ty * nat).
Definition type_find (m : typemap) (t : ty) : option nat :=
  option_map snd (find (fun p => ty_eqb (fst p) t) m).

(** One symbol.  Result: the type map, the symbols with final data types, the
    dt_num list so far. *)
Definition type_symbol (g : grammar) (st : typemap * list symbol * list nat) (i : nat)
  : gres (typemap * list symbol * list nat) :=
  let '(m, syms, dts) := st in
  if opt_eqb Nat.eqb (g_wild g) (Some i) then GOk (m, syms, dts ++ [0])
  else
    dt <-! match sy_kind (nth i syms dummy_sym) with
           | KMulti [] => GPanic                      (* first().unwrap(), 2153 *)
           | KMulti (c :: _) =>
               if c =? i then GPanic                  (* borrowed twice, 2145/2153 *)
               else GOk (sy_type (nth c syms dummy_sym))
           | _ => GOk (sy_type (nth i syms dummy_sym))
           end ;
    let dt := match dt with Some t => Some t | None => f_default_type (g_fe g) end in
    let syms' := upd syms i (sym_set_type dt) in
    match dt with
    | None => GOk (m, syms', dts ++ [0])
    | Some t =>
        match type_find m t with
        | Some n => GOk (m, syms', dts ++ [n])
        | None => let n := S (List.length m) in GOk (m ++ [(t, n)], syms', dts ++ [n])
        end
    end.

(** ** What the generated code reads at run time *)
Record rt_rule := mkRtRule {
  rr_lhs : nat;                        (* YY_RULE_INFO entry *)
  rr_rhs : list (nat * bool * nat);    (* symbol, alias?, expected YYn of the pattern *)
  rr_code : rcode;
  rr_dt : nat }.                       (* YYn wrapped around the result *)

Record tables := mkTables {
  t_nstate : nat;
  t_nrule : nat;
  t_nsym : nat;                        (* YYNOCODE *)
  t_nterm : nat;                       (* length of YY_TOKEN_NAMES *)
  t_wild : nat;                        (* YYWILDCARD, 0 if none *)
  t_err : nat;                         (* YYERRORSYMBOL, 0 if unused *)
  t_action : list nat;
  t_lookahead : list nat;
  t_shift_ofst : list Z;
  t_shift_min : Z;
  t_shift_max : Z;
  t_reduce_ofst : list Z;
  t_reduce_min : Z;
  t_reduce_max : Z;
  t_default : list nat;
  t_fallback : list nat;
  t_rules : list rt_rule;
  t_limit : nat;                       (* YYSTACKLIMIT *)
  t_dts : list nat;                    (* dt_num of each symbol *)
  t_typed : list bool;                 (* does the token carry data? by symbol *)
  t_root : option nat;                 (* YYn the accept code expects; None: no check *)
  t_names : list string }.

(** mod.rs 2265-2281: (state id, is_tkn, n_action), largest first *)
Definition axset := (nat * bool * nat)%type.
Definition ax_less (a b : axset) : bool := snd a <? snd b.
Definition ax_sets (ks : list counts) (order : list nat) : list axset :=
  rev (ssort ax_less (flat_map (fun s =>
    let k := nth s ks (mkCounts 0 0 0) in [(s, true, k_tkn k); (s, false, k_nt k)]) order)).

(** mod.rs 2300-2332: the action set of one axset *)
Definition action_set (g : grammar) (ns nr : nat) (num : nat -> nat) (s : state) (is_tkn : bool)
  : list (nat * nat) :=
  flat_map (fun a =>
    let keep := if is_tkn then a_la a <? g_nterm g
                else negb (a_la a <? g_nterm g) && negb (a_la a =? g_dflt g) in
    if keep then match compute_action ns nr num (a_det a) with
                 | Some x => [(a_la a, x)]
                 | None => []
                 end
    else []) (s_actions s).

(** State of the packing loop, mod.rs 2283-2339; offsets are by state id *)
Record packing := mkPacking {
  k_tab : acttab;
  k_tofs : list (option Z);
  k_nofs : list (option Z);
  k_tmin : Z; k_tmax : Z; k_nmin : Z; k_nmax : Z }.

Definition pack_one (g : grammar) (ns nr : nat) (num : nat -> nat) (sts : list state)
    (k : packing) (a : axset) : gres packing :=
  let '(s, is_tkn, n) := a in
  if n =? 0 then GOk k
  else
    '(ofs, tab) <-! insert_action_set (k_tab k)
                      (action_set g ns nr num (nth s sts dummy_state) is_tkn) ;
    if is_tkn
    then GOk (mkPacking tab (upd (k_tofs k) s (fun _ => Some ofs)) (k_nofs k)
                (Z.min ofs (k_tmin k)) (Z.max ofs (k_tmax k)) (k_nmin k) (k_nmax k))
    else GOk (mkPacking tab (k_tofs k) (upd (k_nofs k) s (fun _ => Some ofs))
                (k_tmin k) (k_tmax k) (Z.min ofs (k_nmin k)) (Z.max ofs (k_nmax k))).

Definition pack_all (g : grammar) (ns nr : nat) (num : nat -> nat) (sts : list state)
    (ax : list axset) : gres packing :=
  gfold (pack_one g ns nr num sts) ax
    (mkPacking [] (repeat None ns) (repeat None ns) 0 0 0 0).

(** mod.rs 2457-2475 and 2479-2497: offsets up to the last state that has one *)
Definition ofst_table (order : list nat) (ofs : list (option Z)) (mn : Z) : gres (list Z) :=
  let l := map (fun s => nth s ofs None) order in
  match rposition opt_is_some l with
  | None => GPanic (* rposition(..).unwrap() *)
  | Some n => GOk (map (fun o => match o with Some z => z | None => (mn - 1)%Z end)
                     (firstn (S n) l))
  end.

(** mod.rs 2511-2538 *)
Definition fallback_table (syms : list symbol) (dts : list nat) : gres (list nat) :=
  let mx := match rposition (fun s => opt_is_some (sy_fb s)) syms with
            | Some n => S n | None => 0 end in
  gfold (fun acc i =>
    match sy_fb (nth i syms dummy_sym) with
    | None => GOk (acc ++ [0])
    | Some fb =>
        let fdt := nth fb dts 0 in
        if (fdt =? 0) || (fdt =? nth i dts 0) then GOk (acc ++ [fb]) else GErr EFallbackType
    end) (seq 0 mx) [].

(** mod.rs 2964-3022: the static part of a rule's code *)
Definition translate_code (g : grammar) (dts : list nat) (r : rule) : gres rt_rule :=
  _ <-! gfold (fun (_ : unit) (p : nat * bool) =>
          match sy_kind (gsym g (fst p)) with
          | KMulti ms =>
              if snd p then
                (* &ss[1..] is in range: ss is not empty, see [type_symbol] *)
                if forallb (fun o => nth (fst p) dts 0 =? nth o dts 0) (tl ms)
                then GOk tt else GErr ECompoundAlias
              else GOk tt
          | _ => GOk tt
          end) (r_rhs r) tt ;
  _ <-! gfold (fun (_ : unit) (p : nat * bool) =>
          if snd p && opt_eqb Nat.eqb (Some (fst p)) (g_wild g) then GErr EWildAlias else GOk tt)
          (r_rhs r) tt ;
  GOk (mkRtRule (r_lhs r) (map (fun p => (fst p, snd p, nth (fst p) dts 0)) (r_rhs r))
         (r_code r) (nth (r_lhs r) dts 0)).

Definition gmapM {A B} (f : A -> gres B) (l : list A) : gres (list B) :=
  gfold (fun acc a => b <-! f a ; GOk (acc ++ [b])) l [].

(** What [resort_states] computes: the counts by state id, the ids in their final
    order, and the final number of a state (state_num, mod.rs 1409-1411). *)
Definition all_counts (g : grammar) (p : pst) : list counts :=
  map (state_counts g (List.length (p_states p)) (List.length (g_rules g))) (p_states p).
Definition state_order (g : grammar) (p : pst) : list nat :=
  resort_states (all_counts g p) (List.length (p_states p)).
Definition state_num (g : grammar) (p : pst) (s : nat) : nat := index_of (state_order g p) s.

(** mod.rs 2265-2339 *)
Definition pack_states (g : grammar) (p : pst) : gres packing :=
  pack_all g (List.length (p_states p)) (List.length (g_rules g)) (state_num g p) (p_states p)
    (ax_sets (all_counts g p) (state_order g p)).

(** mod.rs 2136-2168 *)
Definition type_symbols (g : grammar) : gres (typemap * list symbol * list nat) :=
  gfold (type_symbol g) (seq 0 (List.length (g_syms g))) ([], g_syms g, []).

(** mod.rs 2083-2962.  [p] has the compressed states. *)
Definition generate_source (g : grammar) (p : pst) : gres tables :=
  let ns := List.length (p_states p) in
  let nr := List.length (g_rules g) in
  let ks := all_counts g p in
  let order := state_order g p in
  (* 2103-2112 *)
  w <-! match g_wild g with
        | None => GOk 0
        | Some w => if has_type g w then GErr EWildType else GOk w
        end ;
  (* 2136-2168 *)
  '(m, syms, dts) <-! type_symbols g ;
  (* 2170-2199 *)
  let tok := match f_token (g_fe g) with Some t => t | None => (0, []) end in
  _ <-! (if fst tok =? 0 then GOk tt else GErr ETokenNotEmpty) ;
  let par := match f_parser (g_fe g) with Some t => t | None => (0, snd tok) end in
  _ <-! (if fst par =? 0 then GOk tt else GErr EParserNotEmpty) ;
  _ <-! (if forallb (fun x => existsb (String.eqb x) (snd par)) (snd tok)
         then GOk tt else GErr EGenerics) ;
  (* 2265-2339 *)
  k <-! pack_states g p ;
  so <-! ofst_table order (k_tofs k) (k_tmin k) ;
  ro <-! ofst_table order (k_nofs k) (k_nmin k) ;
  fb <-! fallback_table syms dts ;
  rr <-! gmapM (translate_code g dts) (g_rules g) ;
  let root := match sy_type (nth (g_start g) syms dummy_sym) with Some t => t | None => TyUnit end in
  GOk {| t_nstate := ns; t_nrule := nr; t_nsym := List.length (g_syms g); t_nterm := g_nterm g;
         t_wild := w;
         t_err := if 1 <? sy_use (gsym g (g_error g)) then g_error g else 0;
         t_action := map (fun e => match e with Some (_, a) => a | None => ns + nr + 2 end) (k_tab k);
         t_lookahead := map (fun e => match e with Some (l, _) => l | None => g_dflt g end) (k_tab k);
         t_shift_ofst := so; t_shift_min := k_tmin k; t_shift_max := k_tmax k;
         t_reduce_ofst := ro; t_reduce_min := k_nmin k; t_reduce_max := k_nmax k;
         t_default := map (fun s => k_dflt (nth s ks (mkCounts 0 0 0))) order;
         t_fallback := fb; t_rules := rr; t_limit := f_stack_limit (g_fe g);
         t_dts := dts; t_typed := map (fun s => opt_is_some (sy_type s)) syms;
         t_root := type_find m root;
         t_names := map sy_name (firstn (g_nterm g) syms) |}.

(** mod.rs 574-597, after [new_from_decls].  Everything the back end computes is
    returned, so that theorems can talk about the intermediate stages. *)
Record built := mkBuilt {
  bt_grammar : grammar;     (* after normalize_rules *)
  bt_firsts : firsts;
  bt_auto : pst;            (* after find_follow_sets *)
  bt_acts : pst;            (* after find_actions *)
  bt_comp : pst;            (* after compress_tables *)
  bt_tables : tables }.

Definition build_fe (fuel : nat) (ord : list (nat * nat) -> list (nat * nat)) (f : fe)
  : gres built :=
  g0 <-! prepare ord f ;
  g <-! normalize_rules (find_rule_precedences g0) ;
  fi <-! find_first_sets fuel g ;
  p1 <-! find_states fuel g fi ;
  p2 <-! find_follow_sets fuel (find_links p1) ;
  '(p3, nconflict) <-! find_actions g p2 ;
  if 0 <? nconflict then GErr EConflicts
  else
    p4 <-! compress_tables fuel g p3 ;
    t <-! generate_source g p4 ;
    GOk (mkBuilt g fi p2 p3 p4 t).

(** What pomelo! { ds } does. *)
Definition build (fuel : nat) (ord : list (nat * nat) -> list (nat * nat)) (ds : list decl)
  : gres built :=
  f <-! new_from_decls fuel ds ; build_fe fuel ord f.
