(** LR(0) state construction with propagation links: mod.rs 852-1036,
    1569-1674. *)
From Verif Require Import Base Syntax FrontEnd First.

(** mod.rs 127-134; [c_complete] is [status = Complete]. *)
Record config := mkCfg {
  c_rule : nat;
  c_dot : nat;
  c_fws : list nat;
  c_fplp : list nat;
  c_bplp : list nat;
  c_complete : bool }.

Definition cfg_set_fws (x : list nat) (c : config) : config :=
  mkCfg (c_rule c) (c_dot c) x (c_fplp c) (c_bplp c) (c_complete c).
Definition cfg_add_fplp (x : nat) (c : config) : config :=
  mkCfg (c_rule c) (c_dot c) (c_fws c) (c_fplp c ++ [x]) (c_bplp c) (c_complete c).
Definition cfg_add_bplp (x : list nat) (c : config) : config :=
  mkCfg (c_rule c) (c_dot c) (c_fws c) (c_fplp c) (c_bplp c ++ x) (c_complete c).
Definition cfg_set_complete (b : bool) (c : config) : config :=
  mkCfg (c_rule c) (c_dot c) (c_fws c) (c_fplp c) (c_bplp c) b.

(** mod.rs 149-160 *)
Inductive detail :=
| Shift (s : nat) | Accept | Reduce (r : nat) | Error
| SSConflict (s : nat) | SRConflict (r : nat) | RRConflict (r : nat)
| SHResolved (s : nat) | RDResolved (r : nat) | NotUsed.

(** mod.rs 196-199 *)
Record action := mkAct { a_la : nat; a_det : detail }.

(** mod.rs 221-231, the fields that exist before [resort_states].  A state is
    denoted by its position in [p_states]: until [resort_states] this is its
    [state_num]. *)
Record state := mkState {
  s_configs : list nat;
  s_basis : list nat;
  s_actions : list action }.

Definition st_set_actions (x : list action) (s : state) : state :=
  mkState (s_configs s) (s_basis s) x.

(** The arenas the_configs and the_states *)
Record pst := mkPst { p_cfgs : list config; p_states : list state }.

Definition dummy_cfg : config := mkCfg 0 0 [] [] [] false.
Definition cfg (cs : list config) (i : nat) : config := nth i cs dummy_cfg.
Definition dummy_state : state := mkState [] [] [].
Definition pstate (p : pst) (i : nat) : state := nth i (p_states p) dummy_state.

(** The (rule index, dot) pair of a configuration. *)
Definition ckey (cs : list config) (i : nat) : nat * nat := (c_rule (cfg cs i), c_dot (cfg cs i)).

Definition key_eqb (a b : nat * nat) : bool := (fst a =? fst b) && (snd a =? snd b).
Definition key_less (a b : nat * nat) : bool :=
  (fst a <? fst b) || ((fst a =? fst b) && (snd a <? snd b)).

(** mod.rs 136-146 *)
Definition config_less (cs : list config) (a b : nat) : bool := key_less (ckey cs a) (ckey cs b).

(** mod.rs 1654-1674: returns the id, the extended list and the arena *)
Definition add_config (cs : list config) (cfgs : list nat) (r d : nat)
  : nat * list nat * list config :=
  match find (fun x => key_eqb (ckey cs x) (r, d)) cfgs with
  | Some i => (i, cfgs, cs)
  | None => (List.length cs, cfgs ++ [List.length cs], cs ++ [mkCfg r d [] [] [] false])
  end.

(** mod.rs 1613-1641: what follows the expanded non-terminal; the boolean is [broken] *)
Fixpoint follow_rest (g : grammar) (fi : firsts) (rest : list (nat * bool)) (fws : list nat)
  : list nat * bool :=
  match rest with
  | [] => (fws, false)
  | (x, _) :: rest' =>
      match sy_kind (gsym g x) with
      | KTerm => (sadd x fws, true)
      | KMulti ms => (sunion fws ms, true)
      | KNonTerm =>
          let fws' := sunion fws (first_of (fi_first fi) x) in
          if lam_of (fi_lam fi) x then follow_rest g fi rest' fws' else (fws', true)
      end
  end.

(** mod.rs 1610-1645, one rule [newrp] of the expanded non-terminal *)
Definition closure_rule (g : grammar) (fi : firsts) (cfp : nat) (rest : list (nat * bool))
    (st : list nat * list config) (newrp : nat) : list nat * list config :=
  let '(cur, cs) := st in
  let '(newcfp, cur1, cs1) := add_config cs cur newrp 0 in
  let '(fws, broken) := follow_rest g fi rest (c_fws (cfg cs1 newcfp)) in
  let cs2 := upd cs1 newcfp (cfg_set_fws fws) in
  if broken then (cur1, cs2) else (cur1, upd cs2 cfp (cfg_add_fplp newcfp)).

(** mod.rs 1588-1652: the [while i < cur.len()] loop *)
Fixpoint closure_loop (fuel : nat) (g : grammar) (fi : firsts) (i : nat)
    (cur : list nat) (cs : list config) : gres (list nat * list config) :=
  match fuel with
  | 0 => GFuel
  | S n =>
      match nth_error cur i with
      | None => GOk (cur, cs)
      | Some cfp =>
          let rhs := r_rhs (grule g (c_rule (cfg cs cfp))) in
          let dot := c_dot (cfg cs cfp) in
          match nth_error rhs dot with
          | None => closure_loop n g fi (S i) cur cs
          | Some (sp, _) =>
              match sy_kind (gsym g sp) with
              | KNonTerm =>
                  let rules := rules_of g sp in
                  match rules with
                  | [] => if sp =? g_error g then closure_loop n g fi (S i) cur cs
                          else GErr ENtNoRules
                  | _ =>
                      let '(cur', cs') :=
                        fold_left (closure_rule g fi cfp (skipn (S dot) rhs)) rules (cur, cs) in
                      closure_loop n g fi (S i) cur' cs'
                  end
              | _ => closure_loop n g fi (S i) cur cs
              end
          end
      end
  end.
Definition configlist_closure (fuel : nat) (g : grammar) (fi : firsts) (cur : list nat)
    (cs : list config) : gres (list nat * list config) :=
  closure_loop fuel g fi 0 cur cs.

(** mod.rs 1569-1585 *)
Definition same_keys (cs : list config) (a b : list nat) : bool :=
  (List.length a =? List.length b)
  && forallb (fun p => key_eqb (ckey cs (fst p)) (ckey cs (snd p))) (combine a b).
Definition state_find (p : pst) (bp : list nat) : option nat :=
  position (fun s => same_keys (p_cfgs p) (s_basis s) bp) (p_states p).

(** mod.rs 904-907: copy the back links into the existing state's basis *)
Definition merge_bplp (cs : list config) (bp basis : list nat) : list config :=
  fold_left (fun cs '(x, y) => upd cs y (cfg_add_bplp (c_bplp (cfg cs x)))) (combine bp basis) cs.

(** mod.rs 961-983: the basis of the successor state on symbol [sp], from the
    configurations [l] (the suffix of the state's list starting at the current one) *)
Definition shift_sym (g : grammar) (c : config) : option nat :=
  option_map fst (nth_error (r_rhs (grule g (c_rule c))) (c_dot c)).
Fixpoint shift_basis (g : grammar) (sp : nat) (l : list nat) (basis : list nat)
    (cs : list config) : list nat * list config :=
  match l with
  | [] => (basis, cs)
  | b :: l' =>
      let c := cfg cs b in
      if c_complete c then shift_basis g sp l' basis cs
      else match shift_sym g c with
           | None => shift_basis g sp l' basis cs
           | Some bsp =>
               if bsp =? sp then
                 let '(newcfg, basis', cs1) := add_config cs basis (c_rule c) (S (c_dot c)) in
                 shift_basis g sp l' basis'
                   (upd (upd cs1 b (cfg_set_complete true)) newcfg (cfg_add_bplp [b]))
               else shift_basis g sp l' basis cs
           end
  end.

(** mod.rs 991-1009: the shift actions on a symbol, one per member of a compound *)
Definition shift_actions (g : grammar) (sp ns : nat) : list action :=
  match sy_kind (gsym g sp) with
  | KMulti ms => map (fun m => mkAct m (Shift ns)) ms
  | _ => [mkAct sp (Shift ns)]
  end.

(** mod.rs 939-941 *)
Definition reset_status (cs : list config) (l : list nat) : list config :=
  fold_left (fun cs c => upd cs c (cfg_set_complete false)) l cs.

(** mod.rs 945-1010, the loop of [build_shifts]; [get] is the recursive call of [get_state] *)
Fixpoint build_shifts_loop (g : grammar) (get : list nat -> pst -> gres (nat * pst))
    (l : list nat) (aps : list action) (p : pst) : gres (list action * pst) :=
  match l with
  | [] => GOk (aps, p)
  | c :: rest =>
      let cc := cfg (p_cfgs p) c in
      if c_complete cc then build_shifts_loop g get rest aps p
      else match shift_sym g cc with
           | None => build_shifts_loop g get rest aps p
           | Some sp =>
               let '(basis, cs) := shift_basis g sp l [] (p_cfgs p) in
               '(ns, p') <-! get basis (mkPst cs (p_states p)) ;
               build_shifts_loop g get rest (aps ++ shift_actions g sp ns) p'
           end
  end.

(** mod.rs 895-931 and 935-1014.  Both arguments of [get_state] are always the
    same list (887, 987).  Recursion is bounded by [fuel]. *)
Fixpoint get_state (fuel : nat) (g : grammar) (fi : firsts) (cur : list nat) (p : pst)
  : gres (nat * pst) :=
  match fuel with
  | 0 => GFuel
  | S n =>
      let bp := ssort (config_less (p_cfgs p)) cur in
      match state_find p bp with
      | Some s => GOk (s, mkPst (merge_bplp (p_cfgs p) bp (s_basis (pstate p s))) (p_states p))
      | None =>
          '(configs, cs) <-! configlist_closure fuel g fi cur (p_cfgs p) ;
          let configs := ssort (config_less cs) configs in
          let id := List.length (p_states p) in
          let p1 := mkPst (reset_status cs configs) (p_states p ++ [mkState configs bp []]) in
          '(aps, p2) <-! build_shifts_loop g (get_state n g fi) configs [] p1 ;
          GOk (id, mkPst (p_cfgs p2)
                     (upd (p_states p2) id (fun s => st_set_actions (s_actions s ++ aps) s)))
      end
  end.

(** mod.rs 879-886 *)
Definition start_basis (g : grammar) : list nat * list config :=
  match sy_kind (gsym g (g_start g)) with
  | KNonTerm =>
      fold_left (fun '(basis, cs) r =>
        let '(c, basis', cs') := add_config cs basis r 0 in
        (basis', upd cs' c (fun x => cfg_set_fws (sadd 0 (c_fws x)) x)))
        (rules_of g (g_start g)) ([], [])
  | _ => ([], [])
  end.

(** mod.rs 852-890 *)
Definition find_states (fuel : nat) (g : grammar) (fi : firsts) : gres pst :=
  if existsb (fun r => existsb (fun p => fst p =? g_start g) (r_rhs r)) (g_rules g)
  then GErr EStartRhs
  else
    let '(basis, cs) := start_basis g in
    '(_, p) <-! get_state fuel g fi basis (mkPst cs []) ;
    GOk p.

(** All configurations in the order the code visits them: by state, then in the
    state's list. *)
Definition all_configs (p : pst) : list nat := flat_map s_configs (p_states p).

(** mod.rs 1017-1036 *)
Definition find_links (p : pst) : pst :=
  mkPst (fold_left (fun cs c =>
           fold_left (fun cs b => upd cs b (cfg_add_fplp c)) (c_bplp (cfg cs c)) cs)
           (all_configs p) (p_cfgs p))
        (p_states p).

(** One configuration of the follow-set loop, mod.rs 1054-1072 *)
Definition follow_step (st : list config * bool) (c : nat) : list config * bool :=
  let '(cs, progress) := st in
  if c_complete (cfg cs c) then (cs, progress)
  else
    let fws := c_fws (cfg cs c) in
    let '(cs', progress') :=
      fold_left (fun '(cs, progress) q =>
        let old := c_fws (cfg cs q) in
        let new := sunion old fws in
        if List.length old <? List.length new
        then (upd cs q (fun x => cfg_set_complete false (cfg_set_fws new x)), true)
        else (upd cs q (cfg_set_fws new), progress))
        (c_fplp (cfg cs c)) (cs, progress) in
    (upd cs' c (cfg_set_complete true), progress').

(** mod.rs 1050-1074 *)
Fixpoint follow_loop (fuel : nat) (all : list nat) (cs : list config) : gres (list config) :=
  match fuel with
  | 0 => GFuel
  | S n =>
      let '(cs', progress) := fold_left follow_step all (cs, false) in
      if progress then follow_loop n all cs' else GOk cs'
  end.

(** mod.rs 1043-1075 *)
Definition find_follow_sets (fuel : nat) (p : pst) : gres pst :=
  let all := all_configs p in
  cs <-! follow_loop fuel all (reset_status (p_cfgs p) all) ;
  GOk (mkPst cs (p_states p)).
