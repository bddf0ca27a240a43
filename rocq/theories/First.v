(** Nullable non-terminals and FIRST sets: mod.rs 763-846. *)
From Verif Require Import Base Syntax FrontEnd.

(** [lambda] and [first_set] of every symbol, by symbol index. *)
Definition lam_of (lam : list bool) (s : nat) : bool := nth s lam false.
Definition first_of (fs : list (list nat)) (s : nat) : list nat := nth s fs [].

(** One rule of the first loop, mod.rs 766-789 *)
Definition lambda_rule (st : list bool * bool) (r : rule) : list bool * bool :=
  let '(lam, progress) := st in
  if lam_of lam (r_lhs r) then (lam, progress)
  else if forallb (fun p => lam_of lam (fst p)) (r_rhs r)
       then (upd lam (r_lhs r) (fun _ => true), true)
       else (lam, progress).

(** mod.rs 764-793 *)
Fixpoint lambda_loop (fuel : nat) (g : grammar) (lam : list bool) : gres (list bool) :=
  match fuel with
  | 0 => GFuel
  | S n =>
      let '(lam', progress) := fold_left lambda_rule (g_rules g) (lam, false) in
      if progress then lambda_loop n g lam' else GOk lam'
  end.

(** The inner loop over a right-hand side, mod.rs 801-840: adds to the first
    set of [s1]; the result says whether something was added. *)
Fixpoint first_rhs (g : grammar) (lam : list bool) (s1 : nat) (rhs : list (nat * bool))
    (fs : list (list nat)) (progress : bool) : list (list nat) * bool :=
  match rhs with
  | [] => (fs, progress)
  | (s2, _) :: rest =>
      if s1 =? s2 then
        if lam_of lam s1 then first_rhs g lam s1 rest fs progress else (fs, progress)
      else
        let old := first_of fs s1 in
        match sy_kind (gsym g s2) with
        | KTerm =>
            let new := sadd s2 old in
            (upd fs s1 (fun _ => new), progress || (List.length old <? List.length new))
        | KMulti ms =>
            let new := sunion old ms in
            (upd fs s1 (fun _ => new), progress || (List.length old <? List.length new))
        | KNonTerm =>
            let new := sunion old (first_of fs s2) in
            let fs' := upd fs s1 (fun _ => new) in
            let progress' := progress || (List.length old <? List.length new) in
            if lam_of lam s2 then first_rhs g lam s1 rest fs' progress' else (fs', progress')
        end
  end.

(** mod.rs 795-845 *)
Fixpoint first_loop (fuel : nat) (g : grammar) (lam : list bool) (fs : list (list nat))
  : gres (list (list nat)) :=
  match fuel with
  | 0 => GFuel
  | S n =>
      let '(fs', progress) :=
        fold_left (fun st r => first_rhs g lam (r_lhs r) (r_rhs r) (fst st) (snd st))
          (g_rules g) (fs, false) in
      if progress then first_loop n g lam fs' else GOk fs'
  end.

Record firsts := mkFirsts { fi_lam : list bool; fi_first : list (list nat) }.

(** mod.rs 763-846 *)
Definition find_first_sets (fuel : nat) (g : grammar) : gres firsts :=
  lam <-! lambda_loop fuel g (repeat false (List.length (g_syms g))) ;
  fs <-! first_loop fuel g lam (repeat [] (List.length (g_syms g))) ;
  GOk (mkFirsts lam fs).
