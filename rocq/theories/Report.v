(** The report of the states: printed with %verbose, and the message of the conflict error.
    mod.rs 1431-1567, and 584-590 where it is made. *)
From Coq Require Import DecimalString.
From Verif Require Import Base Syntax FrontEnd First States Actions Tables.
Open Scope string_scope. Open Scope nat_scope. Open Scope list_scope.

Infix "+++" := String.append (right associativity, at level 60).
(** format!("{}", n) *)
Definition num (n : nat) : string := NilEmpty.string_of_uint (Nat.to_uint n).
Fixpoint blanks (n : nat) : string := match n with 0 => "" | S n => String " " (blanks n) end.
(** {:>n} *)
Definition rpad (n : nat) (s : string) : string := blanks (n - String.length s) +++ s.
(** {:<n} *)
Definition lpad (n : nat) (s : string) : string := s +++ blanks (n - String.length s).

Section Report.
Context (g : grammar).
Definition sname (i : nat) : string := sy_name (gsym g i).

(** mod.rs 1451-1458: the members of a class or of alternatives *)
Fixpoint alts (first : bool) (ms : list nat) : string :=
  match ms with [] => "" | m :: ms => (if first then " " else "|") +++ sname m +++ alts false ms end.
(** mod.rs 1445-1462: the right-hand side, the dot [dot] places from here *)
Fixpoint rhs_text (i dot : nat) (rhs : list (nat * bool)) : string :=
  match rhs with
  | [] => ""
  | (X, _) :: rest =>
      (if i =? dot then " *" else "") +++
      (match sy_kind (gsym g X) with KMulti ms => alts true ms | _ => " " +++ sname X end) +++
      rhs_text (S i) dot rest
  end.
(** mod.rs 1437-1466 *)
Definition item_line (c : config) : string :=
  let ru := grule g (c_rule c) in
  let full := c_dot c =? List.length (r_rhs ru) in
  (if full then "    " +++ rpad 5 ("(" +++ num (c_rule c) +++ ")") +++ " " else blanks 10) +++
  sname (r_lhs ru) +++ " ::=" +++ rhs_text 0 (c_dot c) (r_rhs ru) +++ (if full then " *" else "").
(** mod.rs 1469-1537 *)
Definition action_line (a : action) : option string :=
  let n := rpad 30 (sname (a_la a)) in
  match a_det a with
  | Shift s => Some (n +++ " shift  " +++ num s)
  | Reduce r => Some (n +++ " reduce " +++ num r)
  | Accept => Some (n +++ " accept")
  | Error => Some (n +++ " error")
  | SRConflict r | RRConflict r => Some (n +++ " reduce " +++ lpad 3 (num r) +++ " ** Parsing conflict **")
  | SSConflict s => Some (n +++ " shift  " +++ lpad 3 (num s) +++ " ** Parsing conflict **")
  | SHResolved s => Some (n +++ " shift  " +++ lpad 3 (num s) +++ " -- dropped by precedence")
  | RDResolved r => Some (n +++ " reduce " +++ lpad 3 (num r) +++ " -- dropped by precedence")
  | NotUsed => None
  end.
Definition each_some {A B} (f : A -> option B) (l : list A) : list B := flat_map (fun a => match f a with Some b => [b] | None => [] end) l.

(** What is written of one state, mod.rs 1433-1539: its heading, its items, its actions; after the
    items and after the actions comes an empty line *)
Record section := mkSection { k_head : string; k_items : list string; k_acts : list string }.
Definition state_section (cs : list config) (i : nat) (s : state) : section :=
  mkSection ("State " +++ num i +++ ":") (map (fun c => item_line (cfg cs c)) (s_configs s)) (each_some action_line (s_actions s)).
Fixpoint sections (cs : list config) (i : nat) (l : list state) : list section :=
  match l with [] => [] | s :: l => state_section cs i s :: sections cs (S i) l end.
Definition section_lines (k : section) : list string := k_head k :: k_items k ++ "" :: k_acts k ++ [""].
(** mod.rs 1540-1565 *)
Fixpoint symbol_lines (i : nat) (l : list symbol) : list string :=
  match l with [] => [] | s :: l => ("  " +++ rpad 3 (num i) +++ ": " +++ sy_name s) :: symbol_lines (S i) l end.
Definition symbol_table : list string :=
  "----------------------------------------------------" :: "Symbols:" :: symbol_lines 0 (g_syms g).
(** The lines of the text, each ended by a line feed *)
Definition report_output (verbose : bool) (p : pst) : list section * list string :=
  (sections (p_cfgs p) 0 (p_states p), if verbose then symbol_table else []).
Definition report_lines (r : list section * list string) : list string := flat_map section_lines (fst r) ++ snd r.
End Report.

Definition is_verbose (d : decl) : bool := match d with DVerbose => true | _ => false end.
(** mod.rs 1965-1967, 582-590: the report, if one is made, and whether it becomes an error
    message; [build] leaves it out. *)
Definition build_report (fuel : nat) (ord : list (nat * nat) -> list (nat * nat)) (ds : list decl)
  : gres (option (list section * list string) * bool) :=
  f <-! new_from_decls fuel ds ;
  g0 <-! prepare ord f ;
  g <-! normalize_rules (find_rule_precedences g0) ;
  fi <-! find_first_sets fuel g ;
  p1 <-! find_states fuel g fi ;
  p2 <-! find_follow_sets fuel (find_links p1) ;
  '(p3, nconflict) <-! find_actions g p2 ;
  let v := existsb is_verbose ds in
  GOk (if v || (0 <? nconflict) then Some (report_output g v p3) else None, 0 <? nconflict).
