(** The work of a parser is linear in the number of tokens (C45). *)
From Verif Require Import Base Syntax BaseFacts FrontEnd First States Actions Tables Runtime
  PackFacts Spec WfGrammar FirstFacts ClosureFacts AutoFacts LalrFacts ActFacts CompFacts GroupFacts
  TabFacts LookFacts PipeFacts RunFacts SoundFacts SafeFacts AbsFacts HaltFacts TermFacts LimitFacts LimitRun.

(** ** Reductions that follow one another, counted against the height of the stack *)
Section Count.
Context (g : grammar) (W : wf_grammar g) (p : pst) (A : Aut g p).
Notation aspine := (aspine g p unit). Notation ared := (ared g p unit).
Notation run := (run g p). Notation room := (room g).
Notation V := (List.length (g_syms g)).

Lemma run_range k n i c c' : run k n i c c' -> i <> 0 -> k < List.length c' <= n.
Proof.
  induction 1 as [c|i b c c' c'' R H1 H2 H IH]; [lia|]. intros _. destruct i as [|i]; [inversion H; subst; lia|]. apply IH. lia.
Qed.

Lemma run_spine k n i c c' : run k n i c c' -> forall Xs, aspine c Xs -> exists Xs', aspine c' Xs'.
Proof.
  induction 1 as [c|i b c c' c'' R H1 H2 H IH]; intros Xs Hs; eauto.
  destruct (ared_spine g p A _ _ _ _ Hs R) as (st1 & st2 & r & q0 & Xs1 & Xs2 & E1 & E2 & EX & L1 & Hs2 & Hrhs & Hr' & Hraw & He & Hs'). eauto.
Qed.

Lemma run_tight (NH : forall Z, ~ gpath g true Z Z) k n i c c' : run k n i c c' -> forall h delta cb Xs Xb, c = delta ++ cb -> List.length cb <= h ->
  aspine c (Xs ++ Xb) -> Forall2 (eps g) delta Xs -> run k (h + room) i c c'.
Proof.
  induction 1 as [c|i b c c' c'' R H1 H2 H IH]; intros h delta cb Xs Xb E L Hs Hf; [constructor|]. subst c.
  assert (Hn : exists d' cb' X' Xb', c' = d' ++ cb' /\ List.length cb' <= h /\ aspine c' (X' ++ Xb') /\ Forall2 (eps g) d' X').
  { destruct (le_lt_dec (List.length c') (List.length cb)) as [Lc|Lc].
    - destruct (ared_spine g p A _ _ _ _ Hs R) as (st1 & st2 & r & q & Xs1 & Xs2 & E1 & E2 & EX & L1 & Hs2 & Hrhs & Hr' & Hraw & He & Hs').
      exists [], c', [], (r_lhs (grule g r) :: Xs2). splits; auto. lia.
    - destruct (ared_eps g p A _ _ _ _ _ _ Hs Hf R Lc) as (d' & X' & E' & Hs' & Hf'). exists d', cb, X', Xb. splits; auto. }
  destruct Hn as (d' & cb' & X' & Xb' & E' & L' & Hs' & Hf'). econstructor; eauto.
  subst c'. pose proof (eps_height g W p A NH _ _ _ _ Hs' Hf'). rewrite app_length. lia.
Qed.

(** [C] reductions at most without going below the entry on top, and [J] entries more at most. *)
Definition level_bound (C J : nat) (ok : nat -> Prop) : Prop :=
  (forall n i c', ok n -> run 0 n i [] c' -> i <= C /\ List.length c' <= J) /\
  (forall n i e cb Z Xb c', ok n -> aspine (e :: cb) (Z :: Xb) -> run (List.length cb) n i (e :: cb) c' -> i <= C /\ List.length c' <= S (List.length cb) + J).

Lemma level_count C J ok : level_bound C J ok -> forall h n i c Xs c', List.length c <= h -> aspine c Xs -> ok n -> run 0 n i c c' ->
  exists lo, lo <= List.length c /\ List.length c' <= lo + J /\ i <= S C * S (List.length c - lo).
Proof.
  intros [B0 B1]. induction h as [|h IH]; intros n i c Xs c' Hh Hs Hok Hr.
  - destruct c; [|cbn in Hh; lia]. destruct (B0 _ _ _ Hok Hr). exists 0. cbn [List.length Nat.sub]. splits; lia.
  - destruct Hs as [|cb Xb Z q t Hs Hq].
    { destruct (B0 _ _ _ Hok Hr). exists 0. cbn [List.length Nat.sub]. splits; lia. }
    cbn [List.length] in Hh. assert (Hs' : aspine ((q, t) :: cb) (Z :: Xb)) by now constructor.
    destruct (run_split g p _ _ _ _ _ Hr (List.length cb)) as [Hr1|(i1 & i2 & b & c1 & c2 & -> & Hr1 & R & G1 & G2 & Hr2)].
    + destruct (B1 _ _ _ _ _ _ _ Hok Hs' Hr1). exists (S (List.length cb)). cbn [List.length]. rewrite Nat.sub_diag. splits; lia.
    + destruct (B1 _ _ _ _ _ _ _ Hok Hs' Hr1) as [Hi1 _]. destruct (run_spine _ _ _ _ _ Hr1 _ Hs') as (Xs1 & Hs1).
      destruct (ared_spine g p A _ _ _ _ Hs1 R) as (st1 & st2 & r & q0 & Xa & Xc & E1 & E2 & EX & L1 & Hs2 & Hrhs & Hr' & Hraw & He & Hs2').
      destruct (IH n i2 c2 _ c' ltac:(lia) Hs2' Hok Hr2) as (lo & Hlo & Hc & Hi2). exists lo. cbn [List.length]. splits; try lia.
      replace (S (List.length cb) - lo) with (S (List.length cb - lo)) by lia.
      assert (Hm : S C * S (List.length c2 - lo) <= S C * S (List.length cb - lo)) by (apply Nat.mul_le_mono_l; lia).
      rewrite (Nat.mul_succ_r (S C) (S (List.length cb - lo))). lia.
Qed.

Lemma bound_limit (NC : forall s Z, ~ ups g p s Z Z) l : exists C, level_bound C l (fun n => n <= l).
Proof.
  destruct (above g W p A NC l) as (B & HB). exists (S V * S B + B). split.
  - intros n i c' Hn Hr. assert (i <= B) by (eapply (HB 0 n i [] [] c'); try lia; eauto; constructor). split; [lia|].
    destruct i as [|i]; [inversion Hr; subst; cbn; lia|]. pose proof (run_range _ _ _ _ _ Hr ltac:(lia)). lia.
  - intros n i e cb Z Xb c' Hn Hs Hr. assert (i <= S V * S B).
    { apply (inner g W p A NC B (List.length cb) n) with (v := []) (e := e) (cb := cb) (Z := Z) (Xb := Xb) (c' := c'); auto.
      - intros cb1 Xb1 i1 c1 Hc Hsp1 Hrun. apply (HB (S (List.length cb)) n i1 cb1 Xb1 c1); auto; lia.
      - cbn [List.length]. lia.
      - constructor; [intros []|constructor]. }
    split; [lia|]. destruct i as [|i]; [inversion Hr; subst; cbn; lia|]. pose proof (run_range _ _ _ _ _ Hr ltac:(lia)). lia.
Qed.

Lemma bound_open (NC : forall s Z, ~ ups g p s Z Z) (NH : forall Z, ~ gpath g true Z Z) : exists C, level_bound C room (fun _ => True).
Proof.
  destruct (above g W p A NC room) as (B & HB). exists (S V * S B + B). split.
  - intros n i c' _ Hr. assert (Hr' : run 0 (0 + room) i [] c') by (apply (run_tight NH _ _ _ _ _ Hr 0 [] [] [] []); auto; constructor). clear Hr. cbn [Nat.add] in Hr'.
    assert (i <= B) by (eapply (HB 0 room i [] [] c'); try lia; eauto; constructor). split; [lia|].
    destruct i as [|i]; [inversion Hr'; subst; cbn; lia|]. pose proof (run_range _ _ _ _ _ Hr' ltac:(lia)). lia.
  - intros n i e cb Z Xb c' _ Hs Hr. assert (Hr' : run (List.length cb) (S (List.length cb) + room) i (e :: cb) c').
    { apply (run_tight NH _ _ _ _ _ Hr (S (List.length cb)) [] (e :: cb) [] (Z :: Xb)); auto. }
    clear Hr. assert (i <= S V * S B).
    { apply (inner g W p A NC B (List.length cb) (S (List.length cb) + room)) with (v := []) (e := e) (cb := cb) (Z := Z) (Xb := Xb) (c' := c'); auto.
      - intros cb1 Xb1 i1 c1 Hc Hsp1 Hrun. apply (HB (S (List.length cb)) (S (List.length cb) + room) i1 cb1 Xb1 c1); auto.
      - cbn [List.length]. lia.
      - constructor; [intros []|constructor]. }
    split; [lia|]. destruct i as [|i]; [inversion Hr'; subst; cbn; lia|]. pose proof (run_range _ _ _ _ _ Hr' ltac:(lia)). lia.
Qed.
End Count.

(** ** What a call costs: every event in the log, and the entries left on the stack *)
Section Cost.
Context {M X E R : Type} (t : tables) (h : hooks M X E R).
Notation size pp := (List.length (ps_log pp)).
Notation height pp := (List.length (ps_stack pp)).

Definition cheap {B} (k : nat) (pp : parser M X R) (r : res M X E R B) : Prop :=
  match r with
  | ROk _ p1 | RErr _ p1 => size pp <= size p1 /\ size p1 + height p1 <= size pp + height pp + k
  | _ => True
  end.

Lemma shift_cheap pp ns a m : cheap 1 pp (yy_shift t h pp ns a m).
Proof.
  unfold yy_shift. destruct (_ && _); [destruct (h_overflow h a m (ps_extra pp)) as [x e]|]; cbn; lia.
Qed.
Lemma failed_cheap {B} pp : cheap 1 pp (yy_parse_failed (A := B) h pp).
Proof. unfold yy_parse_failed. destruct (h_fail h (ps_extra pp)) as [x e]. cbn. lia. Qed.

Lemma recover_cheap n st0 a m : forall pp, cheap 3 pp (recover t h n st0 a m pp).
Proof.
  induction n as [|n IH]; intros pp; [exact I|]. cbn [recover]. destruct (ps_stack pp) as [|tp rest] eqn:Es; [cbn; lia|].
  destruct (e_major tp =? t_err t); [cbn; lia|]. destruct (find_reduce_action t (e_state tp) (t_err t)) as [ac| |]; try exact I.
  destruct (ac <? t_nstate t).
  - destruct (h_syntax h a m (expected_tokens t st0) (ps_extra pp)) as [x [v|e]]; [|cbn; lia].
    set (p1 := log (set_extra pp x) (EvSyntaxError a)). pose proof (shift_cheap p1 ac (t_err t) v) as HS.
    assert (E1 : size p1 = S (size pp) /\ height p1 = height pp) by (split; reflexivity). destruct E1 as [E1 E2].
    destruct (yy_shift t h p1 ac (t_err t) v) as [u p2|e p2| |]; cbn [rbind cheap] in *; auto; [cbn [log ps_log ps_stack List.length]|]; lia.
  - specialize (IH (log (set_stack pp rest) EvPop)). destruct (recover t h n st0 a m _) as [u p2|e p2| |]; cbn [cheap] in *; auto; cbn in IH; rewrite Es; cbn [List.length]; lia.
Qed.

Lemma error_cheap pp st0 a m : cheap 4 pp (syntax_error t h pp st0 a m).
Proof.
  unfold syntax_error. destruct (a =? 0).
  { pose proof (failed_cheap (B := unit) pp) as H. destruct (yy_parse_failed h pp); cbn [cheap] in *; auto; lia. }
  destruct (negb (t_err t =? 0)).
  - pose proof (recover_cheap (S (height pp)) st0 a m pp) as HR.
    destruct (recover t h (S (height pp)) st0 a m pp) as [u p1|e p1| |]; cbn [rbind cheap] in *; auto; [|lia].
    destruct (ps_stack p1) as [|tp rest] eqn:Es.
    + pose proof (failed_cheap (B := unit) p1) as H. unfold cheap in H. rewrite Es in H. cbn [List.length] in *. destruct (yy_parse_failed h p1); cbn [cheap] in *; auto; lia.
    + cbn. rewrite Es. cbn [List.length] in *. lia.
  - destruct (ps_count pp =? 0); [destruct (h_syntax h a m (expected_tokens t st0) (ps_extra pp)) as [x [v|e]]|]; cbn; lia.
Qed.

(** A counter that no block and no handler raises by more than one *)
Context (mu : X -> nat).
Record slow : Prop := {
  sl_red : forall r vals x x' ve, h_reduce h r vals x = Some (x', ve) -> mu x' <= S (mu x);
  sl_syn : forall a m exp x, mu (fst (h_syntax h a m exp x)) <= S (mu x);
  sl_fail : forall x, mu (fst (h_fail h x)) <= S (mu x);
  sl_over : forall a m x, mu (fst (h_overflow h a m x)) <= S (mu x) }.
Hypothesis SL : slow.
Definition paced {B} (pp : parser M X R) (r : res M X E R B) : Prop :=
  match r with
  | ROk _ p1 | RErr _ p1 => mu (ps_extra p1) + size pp <= mu (ps_extra pp) + size p1
  | _ => True
  end.

Lemma shift_paced pp ns a m : paced pp (yy_shift t h pp ns a m).
Proof.
  unfold yy_shift. destruct (_ && _); [|cbn; lia]. pose proof (sl_over SL a m (ps_extra pp)) as H. destruct (h_overflow h a m (ps_extra pp)) as [x e]; cbn in *; lia.
Qed.
Lemma failed_paced {B} pp : paced pp (yy_parse_failed (A := B) h pp).
Proof. unfold yy_parse_failed. pose proof (sl_fail SL (ps_extra pp)) as H. destruct (h_fail h (ps_extra pp)) as [x e]. cbn in *. lia. Qed.
Lemma recover_paced n st0 a m : forall pp, paced pp (recover t h n st0 a m pp).
Proof.
  induction n as [|n IH]; intros pp; [exact I|]. cbn [recover]. destruct (ps_stack pp) as [|tp rest] eqn:Es; [cbn; lia|].
  destruct (e_major tp =? t_err t); [cbn; lia|]. destruct (find_reduce_action t (e_state tp) (t_err t)) as [ac| |]; try exact I.
  destruct (ac <? t_nstate t).
  - pose proof (sl_syn SL a m (expected_tokens t st0) (ps_extra pp)) as HM. destruct (h_syntax h a m (expected_tokens t st0) (ps_extra pp)) as [x [v|e]]; [|cbn in *; lia]. cbn [fst] in HM.
    set (p1 := log (set_extra pp x) (EvSyntaxError a)). pose proof (shift_paced p1 ac (t_err t) v) as HS.
    assert (E1 : size p1 = S (size pp) /\ ps_extra p1 = x) by (split; reflexivity). destruct E1 as [E1 E2]. unfold paced in HS. rewrite E1, E2 in HS.
    destruct (yy_shift t h p1 ac (t_err t) v) as [u p2|e p2| |]; cbn [rbind paced] in *; auto; [cbn [log ps_log ps_extra List.length]|]; lia.
  - specialize (IH (log (set_stack pp rest) EvPop)). destruct (recover t h n st0 a m _) as [u p2|e p2| |]; cbn [paced] in *; auto; cbn in IH; lia.
Qed.
Lemma error_paced pp st0 a m : paced pp (syntax_error t h pp st0 a m).
Proof.
  unfold syntax_error. destruct (a =? 0); [apply failed_paced|].
  destruct (negb (t_err t =? 0)).
  - pose proof (recover_paced (S (height pp)) st0 a m pp) as HR.
    destruct (recover t h (S (height pp)) st0 a m pp) as [u p1|e p1| |]; cbn [rbind paced] in *; auto.
    destruct (ps_stack p1) as [|tp rest] eqn:Es; [|cbn; lia].
    pose proof (failed_paced (B := unit) p1) as H. destruct (yy_parse_failed h p1); cbn [paced] in *; auto; lia.
  - pose proof (sl_syn SL a m (expected_tokens t st0) (ps_extra pp)) as HM.
    destruct (ps_count pp =? 0); [destruct (h_syntax h a m (expected_tokens t st0) (ps_extra pp)) as [x [v|e]]|]; cbn in *; lia.
Qed.
Lemma reduce_paced pp r : paced pp (yy_reduce t h pp r).
Proof.
  unfold yy_reduce. destruct (nth_error (t_rules t) r) as [rr|]; [|exact I]. destruct (pop_n _ _ _) as [[vals rest]|]; [|exact I].
  destruct (h_reduce h r vals (ps_extra pp)) as [[x ve]|] eqn:Eh; [|exact I]. pose proof (sl_red SL _ _ _ _ _ Eh) as HM.
  destruct ve as [v|e]; [|cbn; lia]. destruct rest as [|tp rest]; [exact I|]. destruct (find_reduce_action t (e_state tp) (rr_lhs rr)) as [ac| |]; try exact I.
  destruct (ac <? t_nstate t).
  - set (p1 := log (set_extra (set_stack pp (tp :: rest)) x) (EvReduce r)). pose proof (shift_paced p1 ac (rr_lhs rr) v) as HS.
    assert (E1 : size p1 = S (size pp) /\ ps_extra p1 = x) by (split; reflexivity). destruct E1 as [E1 E2]. unfold paced in HS. rewrite E1, E2 in HS.
    destruct (yy_shift t h p1 ac (rr_lhs rr) v) as [u p2|e p2| |]; cbn [paced] in *; auto; lia.
  - destruct (ac =? _); [|exact I]. destruct (h_accept h v) as [root|]; [|exact I]. cbn. lia.
Qed.
Lemma token2_paced a m : forall n pp, paced pp (parse_token_2 n t h pp a m).
Proof.
  induction n as [|n IH]; intros pp; [exact I|]. rewrite parse_token_2_S. destruct (ps_status pp); try (cbn; lia).
  destruct (ps_stack pp) as [|tp rest]; [exact I|]. destruct (find_shift_action t (e_state tp) a) as [ac| |]; try exact I.
  destruct (ac <? t_nstate t).
  - destruct (a =? 0); [exact I|]. pose proof (shift_paced pp ac a m) as HS. destruct (yy_shift t h pp ac a m) as [u p2|e p2| |]; cbn [rbind paced] in *; auto. cbn. lia.
  - destruct (ac <? t_nstate t + t_nrule t).
    + pose proof (reduce_paced pp (ac - t_nstate t)) as HS. destruct (yy_reduce t h pp (ac - t_nstate t)) as [u p2|e p2| |]; cbn [rbind paced] in *; auto.
      specialize (IH p2). destruct (parse_token_2 n t h p2 a m); cbn [paced] in *; auto; lia.
    + destruct (ac =? _); [apply error_paced|exact I].
Qed.
Lemma token_paced n pp a m : paced pp (parse_token n t h pp a m).
Proof.
  unfold parse_token. destruct (ps_status pp); try exact I. pose proof (token2_paced a m n pp) as H. destruct (parse_token_2 n t h pp a m); cbn [paced] in *; auto.
Qed.
Lemma all_paced n ts : forall pp, paced pp (parse_all n t h pp ts).
Proof.
  induction ts as [|[a m] ts IH]; intros pp; cbn [parse_all]; [cbn; lia|]. pose proof (token_paced n pp a m) as H.
  destruct (parse_token n t h pp a m) as [u p1|e p1| |]; cbn [rbind paced] in *; auto. specialize (IH p1). destruct (parse_all n t h p1 ts); cbn [paced] in *; auto; lia.
Qed.
Lemma end_paced n pp : paced pp (end_of_input n t h pp).
Proof.
  unfold end_of_input. pose proof (token_paced n pp 0 (h_unit h)) as H. destruct (parse_token n t h pp 0 (h_unit h)) as [u p1|e p1| |]; cbn [rbind paced] in *; auto.
  destruct (ps_status p1); cbn [paced]; auto.
Qed.
Lemma run_paced n x ts : match Runtime.run n t h x ts with ROk _ p1 | RErr _ p1 => mu (ps_extra p1) <= mu x + size p1 | _ => True end.
Proof.
  unfold Runtime.run. pose proof (all_paced n ts (new_parser h x)) as H. destruct (parse_all n t h (new_parser h x) ts) as [u p1|e p1| |]; cbn [rbind paced] in *; auto; cbn [new_parser ps_extra ps_log List.length] in H; [|lia].
  pose proof (end_paced n p1) as H'. destruct (end_of_input n t h p1); cbn [paced] in *; auto; lia.
Qed.
End Cost.
