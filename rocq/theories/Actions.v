(** Actions of the states: conflict resolution, default reductions, renumbering.
    mod.rs 1079-1429, 1747-1751. *)
From Verif Require Import Base Syntax FrontEnd First States.

(** [Less] answers of ActionDetail::cmp, mod.rs 163-191 ([state_num] is the
    state's id up to [resort_states], and no sort happens after it) *)
Definition detail_less (a b : detail) : bool :=
  match a, b with
  | Shift x, Shift y => x <? y
  | Shift _, _ => true
  | Accept, Shift _ => false
  | Accept, Accept => false
  | Accept, _ => true
  | Reduce _, Shift _ => false
  | Reduce _, Accept => false
  | Reduce x, Reduce y => x <? y
  | Reduce _, _ => true
  | _, _ => false
  end.

(** [Equal] answers of ActionDetail::cmp (used by [compress_tables]) *)
Definition detail_equal (a b : detail) : bool :=
  match a, b with
  | Shift x, Shift y => x =? y
  | Shift _, _ => false
  | Accept, Accept => true
  | Accept, _ => false
  | Reduce x, Reduce y => x =? y
  | Reduce _, _ => false
  | _, _ => true
  end.

(** mod.rs 201-218 *)
Definition action_less (a b : action) : bool :=
  (a_la a <? a_la b) || ((a_la a =? a_la b) && detail_less (a_det a) (a_det b)).

(** mod.rs 30-39 *)
Definition precedence_cmp (a b : prec) : comparison :=
  match Nat.compare (fst a) (fst b) with
  | Eq => match snd a with ALeft => Lt | ARight => Gt | ANone => Eq end
  | o => o
  end.

(** mod.rs 1181-1220: the two new details, and whether it counts as a conflict *)
Definition resolve_conflict (g : grammar) (la : nat) (x y : detail) : detail * detail * bool :=
  match x, y with
  | Shift sx, Shift sy => (Shift sx, SSConflict sy, true)
  | Shift sx, Reduce ry =>
      match sy_prec (gsym g la), r_prec (grule g ry) with
      | Some px, Some py =>
          match precedence_cmp px py with
          | Lt => (SHResolved sx, Reduce ry, false)
          | Eq => (Error, Reduce ry, false)
          | Gt => (Shift sx, RDResolved ry, false)
          end
      | _, _ => (Shift sx, SRConflict ry, true)
      end
  | Reduce rx, Reduce ry =>
      match r_prec (grule g rx), r_prec (grule g ry) with
      | Some px, Some py =>
          match precedence_cmp px py with
          | Lt => (RDResolved rx, Reduce ry, false)
          | Eq => (Reduce rx, RRConflict ry, true)
          | Gt => (Reduce rx, RDResolved ry, false)
          end
      | _, _ => (Reduce rx, RRConflict ry, true)
      end
  | x, y => (x, y, false)
  end.

(** mod.rs 1131-1145: action [ap] against the following ones, until the
    lookahead changes *)
Fixpoint resolve_against (g : grammar) (ap : action) (l : list action) (n : nat)
  : action * list action * nat :=
  match l with
  | [] => (ap, [], n)
  | nap :: l' =>
      if a_la ap =? a_la nap then
        let '(dx, dy, e) := resolve_conflict g (a_la ap) (a_det ap) (a_det nap) in
        let '(ap', l'', n') :=
          resolve_against g (mkAct (a_la ap) dx) l' (if e then S n else n) in
        (ap', mkAct (a_la nap) dy :: l'', n')
      else (ap, l, n)
  end.

(** mod.rs 1129-1146; [k] is the number of actions still to visit *)
Fixpoint resolve_all (g : grammar) (k : nat) (l : list action) (n : nat) : list action * nat :=
  match k with
  | 0 => (l, n)
  | S k' =>
      match l with
      | [] => ([], n)
      | ap :: l' =>
          let '(ap', l'', n') := resolve_against g ap l' n in
          let '(l3, n3) := resolve_all g k' l'' n' in
          (ap' :: l3, n3)
      end
  end.

(** mod.rs 1084-1105: the reduce actions of a state *)
Definition reduce_actions (g : grammar) (cs : list config) (s : state) : list action :=
  flat_map (fun c =>
    let cc := cfg cs c in
    if c_dot cc =? List.length (r_rhs (grule g (c_rule cc))) then
      map (fun j => mkAct j (Reduce (c_rule cc)))
        (filter (fun j => smem j (c_fws cc)) (seq 0 (g_nterm g)))
    else []) (s_configs s).

(** mod.rs 1084-1119: all actions before resolution *)
Definition raw_actions (g : grammar) (p : pst) : list state :=
  let sts := map (fun s => st_set_actions (s_actions s ++ reduce_actions g (p_cfgs p) s) s)
               (p_states p) in
  upd sts 0 (fun s => st_set_actions (s_actions s ++ [mkAct (g_start g) Accept]) s).

(** mod.rs 1123-1147 for one state *)
Definition resolve_state (g : grammar) (s : state) : state * nat :=
  let l := ssort action_less (s_actions s) in
  let '(l', n) := resolve_all g (List.length l) l 0 in
  (st_set_actions l' s, n).

Definition is_reduce (r : nat) (a : action) : bool :=
  match a_det a with Reduce x => x =? r | _ => false end.

(** mod.rs 1124-1126 sorts the actions of state [s] while it holds this state with
    [borrow_mut]; to compare two shifts on the same lookahead mod.rs 171-176 borrows both of
    their states (vecref.rs 22-24), and if [s] is one of them the [RefCell] panics.  A sort
    compares every two elements that end up next to each other, and all shifts on one
    lookahead end up next to each other, so [s] is borrowed exactly if it is the target of one
    of two such shifts. *)
Definition borrows (s : nat) (a b : action) : bool :=
  (a_la a =? a_la b) &&
  match a_det a, a_det b with Shift x, Shift y => (x =? s) || (y =? s) | _, _ => false end.
Fixpoint sort_panics (s : nat) (l : list action) : bool :=
  match l with [] => false | a :: l' => existsb (borrows s a) l' || sort_panics s l' end.
Definition any_panics (sts : list state) : bool :=
  existsb (fun s => sort_panics s (s_actions (nth s sts dummy_state))) (seq 0 (List.length sts)).

(** mod.rs 1079-1166; the number of conflicts is returned *)
Definition find_actions (g : grammar) (p : pst) : gres (pst * nat) :=
  let rs := map (resolve_state g) (raw_actions g p) in
  let sts := map fst rs in
  let n := fold_left (fun n x => n + snd x) rs 0 in
  if any_panics (raw_actions g p) then GPanic else
  if forallb (fun r => existsb (fun s => existsb (is_reduce r) (s_actions s)) sts)
       (seq 0 (List.length (g_rules g)))
  then GOk (mkPst (p_cfgs p) sts, n)
  else GErr ENotReduced.

(** mod.rs 1252-1281: does following the fallbacks of [sym] meet, in this
    state, a lookahead whose (first) action is not equal to [d]? *)
Fixpoint fallback_differs (fuel : nat) (g : grammar) (acts : list action) (d : detail) (sym : nat)
  : gres bool :=
  match fuel with
  | 0 => GFuel
  | S n =>
      match sy_fb (gsym g sym) with
      | None => GOk false
      | Some fb =>
          match find (fun a => a_la a =? fb) acts with
          | Some a2 => if detail_equal d (a_det a2) then fallback_differs n g acts d fb
                       else GOk true
          | None => fallback_differs n g acts d fb
          end
      end
  end.

(** mod.rs 1248-1283: the set ignored_actions, of lookaheads *)
Definition ignored_actions (fuel : nat) (g : grammar) (acts : list action) : gres (list nat) :=
  if f_has_fb (g_fe g) then
    gfold (fun ign a =>
      b <-! fallback_differs fuel g acts (a_det a) (a_la a) ;
      GOk (if b then sadd (a_la a) ign else ign)) acts []
  else GOk [].

(** State of the loop mod.rs 1285-1328 *)
Record best := mkBest { b_n : nat; b_rule : option nat; b_wild : bool }.

Definition is_rbest (b : option nat) (r : nat) : bool :=
  match b with Some x => x =? r | None => false end.

(** mod.rs 1303-1320: occurrences of Reduce(rp) among the later actions, plus one *)
Definition count_reduce (ign : list nat) (rbest : option nat) (rp : nat) (l : list action) : nat :=
  fold_left (fun n a =>
    if smem (a_la a) ign then n
    else match a_det a with
         | Reduce rp2 => if is_rbest rbest rp2 then n else if rp2 =? rp then S n else n
         | _ => n
         end) l 1.

Definition lhs_start (g : grammar) (r : nat) : bool := r_lhs (grule g r) =? g_start g.

Fixpoint find_best (g : grammar) (ign : list nat) (l : list action) (b : best) : best :=
  match l with
  | [] => b
  | a :: l' =>
      if smem (a_la a) ign then find_best g ign l' b
      else
        match a_det a, g_wild g with
        | Shift _, Some w =>
            find_best g ign l' (if a_la a =? w then mkBest (b_n b) (b_rule b) true else b)
        | Reduce rp, _ =>
            if lhs_start g rp then find_best g ign l' b
            else if is_rbest (b_rule b) rp then find_best g ign l' b
            else
              let n := count_reduce ign (b_rule b) rp l' in
              find_best g ign l' (if b_n b <? n then mkBest n (Some rp) (b_wild b) else b)
        | _, _ => find_best g ign l' b
        end
  end.

(** mod.rs 1341-1369: the first non-ignored Reduce(rbest) gets the default
    lookahead, the later ones are deleted *)
Definition unuse (ign : list nat) (rbest : nat) (a : action) : action :=
  if smem (a_la a) ign then a
  else if is_reduce rbest a then mkAct (a_la a) NotUsed else a.
Fixpoint make_default (g : grammar) (ign : list nat) (rbest : nat) (l : list action) : list action :=
  match l with
  | [] => []
  | a :: l' =>
      if negb (smem (a_la a) ign) && is_reduce rbest a
      then mkAct (g_dflt g) (a_det a) :: map (unuse ign rbest) l'
      else a :: make_default g ign rbest l'
  end.

(** mod.rs 1236-1374 for one state *)
Definition compress_state (fuel : nat) (g : grammar) (s : state) : gres state :=
  ign <-! ignored_actions fuel g (s_actions s) ;
  let b := find_best g ign (s_actions s) (mkBest 0 None false) in
  match b_rule b with
  | None => GOk s
  | Some rbest =>
      if b_wild b then GOk s
      else GOk (st_set_actions (ssort action_less (make_default g ign rbest (s_actions s))) s)
  end.

(** mod.rs 1231-1375 *)
Definition compress_tables (fuel : nat) (g : grammar) (p : pst) : gres pst :=
  sts <-! gfold (fun acc s => s' <-! compress_state fuel g s ; GOk (acc ++ [s'])) (p_states p) [] ;
  GOk (mkPst (p_cfgs p) sts).

(** mod.rs 1419-1429; [num] gives the state number *)
Definition compute_action (ns nr : nat) (num : nat -> nat) (d : detail) : option nat :=
  match d with
  | Shift s => Some (num s)
  | Reduce r => Some (ns + r)
  | Error => Some (ns + nr)
  | Accept => Some (ns + nr + 1)
  | _ => None
  end.

(** mod.rs 1382-1405: the three numbers recorded for a state.  At that moment
    state numbers are the creation numbers. *)
Record counts := mkCounts { k_tkn : nat; k_nt : nat; k_dflt : nat }.
Definition state_counts (g : grammar) (ns nr : nat) (s : state) : counts :=
  fold_left (fun k a =>
    match compute_action ns nr (fun x => x) (a_det a) with
    | None => k
    | Some x =>
        if a_la a <? g_nterm g then mkCounts (S (k_tkn k)) (k_nt k) (k_dflt k)
        else if a_la a <? g_dflt g then mkCounts (k_tkn k) (S (k_nt k)) (k_dflt k)
        else mkCounts (k_tkn k) (k_nt k) x
    end) (s_actions s) (mkCounts 0 0 (ns + nr)).

(** mod.rs 1747-1751: descending (n_nt_act, n_tkn_act, state_num) *)
Definition resort_less (ks : list counts) (a b : nat) : bool :=
  let ka := nth a ks (mkCounts 0 0 0) in
  let kb := nth b ks (mkCounts 0 0 0) in
  (k_nt kb <? k_nt ka)
  || ((k_nt kb =? k_nt ka) &&
      ((k_tkn kb <? k_tkn ka) || ((k_tkn kb =? k_tkn ka) && (b <? a)))).

(** mod.rs 1406-1412: the state ids in their new order; state 0 stays first.
    There is always a state 0, so [states[1..]] is in range. *)
Definition resort_states (ks : list counts) (ns : nat) : list nat :=
  match ns with
  | 0 => []
  | S m => 0 :: ssort (resort_less ks) (seq 1 m)
  end.
