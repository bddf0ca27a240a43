(** Enough fuel: the loops of the generator end, so that the result of [build] does not
    depend on the fuel once there is enough of it (C30). *)
From Coq Require Import Permutation.
From Verif Require Import Base Syntax BaseFacts FrontEnd First States Actions Tables Spec WfGrammar FirstFacts ClosureFacts StatesFacts DfsFacts FollowFacts AutoFacts LookFacts FrontFacts BuildFacts.
Open Scope string_scope. Open Scope nat_scope. Open Scope list_scope.

(** From some fuel on the result is always the same one, and it is a result of the code. *)
Definition ends {A} (F : nat -> gres A) : Prop := exists n r, r <> GFuel /\ forall n', n <= n' -> F n' = r.

Lemma ends_const {A} (r : gres A) : r <> GFuel -> ends (fun _ => r).
Proof. intros H. exists 0, r. auto. Qed.
Lemma ends_same {A} (F G : nat -> gres A) : (forall n, F n = G n) -> ends F -> ends G.
Proof. intros H (n & r & H1 & H2). exists n, r. split; auto. intros n' Hn. now rewrite <- H, H2. Qed.
Lemma ends_bind {A B} (F : nat -> gres A) (G : nat -> A -> gres B) : ends F ->
  (forall n a, F n = GOk a -> ends (fun n => G n a)) -> ends (fun n => gbind (F n) (G n)).
Proof.
  intros (n & r & H1 & H2) HG. destruct r as [a|e| |]; [|exists n, (GErr e)|exists n, GPanic|congruence].
  - destruct (HG n a (H2 n (le_n n))) as (m & r & H3 & H4). exists (max n m), r. split; auto. intros n' Hn. rewrite H2 by lia. cbn. apply H4. lia.
  - split; [discriminate|]. intros n' Hn. now rewrite H2.
  - split; [discriminate|]. intros n' Hn. now rewrite H2.
Qed.
Lemma ends_gfold {A S} (f : nat -> S -> A -> gres S) (P : S -> Prop) : forall l s, P s ->
  (forall s a, In a l -> P s -> ends (fun n => f n s a) /\ forall n s', f n s a = GOk s' -> P s') -> ends (fun n => gfold (f n) l s).
Proof.
  induction l as [|a l IH]; intros s Hs H; cbn [gfold].
  - apply ends_const. discriminate.
  - destruct (H s a (or_introl eq_refl) Hs) as [H1 H2]. apply (ends_bind (fun n => f n s a) (fun n s' => gfold (f n) l s')); auto.
    intros n s' Hn. apply IH; [eauto|]. intros s0 a0 Ha. apply H. now right.
Qed.

(** A loop that runs until a pass makes no progress *)
Lemma loop_ends {S} (F : nat -> S -> gres S) (step : S -> S * bool) (I : S -> Prop) (m : S -> nat) :
  (forall n s, F (Datatypes.S n) s = let '(s', b) := step s in if b then F n s' else GOk s') ->
  (forall s s' b, I s -> step s = (s', b) -> I s' /\ (b = true -> m s' < m s)) ->
  forall s, I s -> ends (fun n => F n s).
Proof.
  intros HF Hs. assert (H : forall k s, I s -> m s <= k -> exists r, r <> GFuel /\ forall n', Datatypes.S k <= n' -> F n' s = r).
  { induction k as [|k IH]; intros s Is Hm; destruct (step s) as [s' b] eqn:E; destruct (Hs s s' b Is E) as [H1 H2].
    - destruct b; [specialize (H2 eq_refl); lia|]. exists (GOk s'). split; [discriminate|]. intros [|n'] Hn; [lia|]. now rewrite HF, E.
    - destruct b.
      + specialize (H2 eq_refl). destruct (IH s' H1 ltac:(lia)) as (r & H3 & H4). exists r. split; auto. intros [|n'] Hn; [lia|]. rewrite HF, E. apply H4. lia.
      + exists (GOk s'). split; [discriminate|]. intros [|n'] Hn; [lia|]. now rewrite HF, E. }
  intros s Is. destruct (H (m s) s Is (le_n _)) as (r & H1 & H2). exists (Datatypes.S (m s)), r. auto.
Qed.

(** ** Growing sets *)
Definition wt (U l : list nat) : nat := List.length (filter (fun u => smem u l) U).
Lemma wt_le U l : wt U l <= List.length U.
Proof. unfold wt. induction U as [|u U IH]; cbn; [lia|]. destruct (smem u l); cbn; lia. Qed.
Lemma wt_mono U l l' : incl l l' -> wt U l <= wt U l'.
Proof.
  intros H. unfold wt. induction U as [|u U IH]; cbn; auto. destruct (smem u l) eqn:E.
  - apply smem_true in E. assert (E' : smem u l' = true) by (apply smem_true; auto). rewrite E'. cbn. lia.
  - destruct (smem u l'); cbn; lia.
Qed.
Lemma wt_more U l l' x : incl l l' -> In x U -> ~ In x l -> In x l' -> wt U l < wt U l'.
Proof.
  intros H Hx Hn Hl. induction U as [|u U IH]; [contradiction|]. unfold wt. cbn [filter]. destruct (Nat.eq_dec u x) as [->|Hd].
  - assert (E : smem x l = false) by (apply not_true_iff_false; rewrite smem_true; auto).
    assert (E' : smem x l' = true) by (apply smem_true; auto). rewrite E, E'. cbn. pose proof (wt_mono U l l' H). unfold wt in *. lia.
  - destruct Hx as [Hx|Hx]; [congruence|]. specialize (IH Hx). unfold wt in IH. destruct (smem u l) eqn:E.
    + apply smem_true in E. assert (E' : smem u l' = true) by (apply smem_true; auto). rewrite E'. cbn. lia.
    + destruct (smem u l'); cbn; lia.
Qed.
Lemma sunion_more s w : List.length s < List.length (sunion s w) -> exists x, In x w /\ ~ In x s.
Proof.
  revert s. unfold sunion. induction w as [|y w IH]; intros s H; cbn [fold_left] in H; [lia|].
  destruct (smem y s) eqn:E.
  - assert (Es : sadd y s = s) by (unfold sadd; now rewrite E). rewrite Es in H. destruct (IH s H) as (x & H1 & H2). exists x. split; auto. now right.
  - exists y. split; [now left|]. intros Hy. apply smem_true in Hy. congruence.
Qed.
Lemma union_wt U s w : incl w U -> let s' := sunion s w in incl s s' /\ wt U s <= wt U s' /\ (List.length s < List.length s' -> wt U s < wt U s').
Proof.
  intros Hw s'. assert (Hi : incl s s') by (intros x Hx; apply sunion_in; auto). splits; auto using wt_mono.
  intros Hl. apply sunion_more in Hl as (x & H1 & H2). apply (wt_more U s s' x); auto. apply sunion_in. auto.
Qed.

Definition tot {A} (h : A -> nat) (l : list A) : nat := list_sum (map h l).
Lemma tot_upd {A} (h : A -> nat) (l : list A) i f d : i < List.length l -> tot h (upd l i f) + h (nth i l d) = tot h l + h (f (nth i l d)).
Proof.
  unfold tot. revert i. induction l as [|a l IH]; intros [|i] Hi; cbn in *; try lia. specialize (IH i ltac:(lia)). unfold list_sum in *. lia.
Qed.
Lemma tot_le {A} (h : A -> nat) (l : list A) k : (forall a, h a <= k) -> tot h l <= List.length l * k.
Proof. intros H. unfold tot. induction l as [|a l IH]; cbn; [lia|]. specialize (H a). unfold list_sum in *. lia. Qed.

(** ** Nullable symbols *)
Section Firsts.
Context (g : grammar) (W : wf_grammar g).
Notation N := (List.length (g_syms g)).

Definition b2n (b : bool) : nat := if b then 1 else 0.
Lemma lambda_pass l : (forall r, In r l -> r_lhs r < N) -> forall lam pr lam' pr', List.length lam = N -> fold_left lambda_rule l (lam, pr) = (lam', pr') ->
  List.length lam' = N /\ tot b2n lam <= tot b2n lam' /\ (pr' = true -> pr = true \/ tot b2n lam < tot b2n lam').
Proof.
  induction l as [|r l IH]; intros Hr lam pr lam' pr' Hl H; cbn [fold_left] in H.
  - injection H as <- <-. splits; auto.
  - specialize (IH (fun r' Hr' => Hr r' (or_intror Hr'))). specialize (Hr r (or_introl eq_refl)). unfold lambda_rule in H at 2. destruct (lam_of lam (r_lhs r)) eqn:E; [now apply IH in H|].
    destruct (forallb _ _); [|now apply IH in H]. pose proof (tot_upd b2n lam (r_lhs r) (fun _ => true) false ltac:(lia)) as T. unfold lam_of in E. rewrite E in T. cbn in T.
    apply IH in H as (H1 & H2 & H3); [|now rewrite upd_length]. splits; auto; lia.
Qed.
Lemma rule_lhs_lt r : In r (g_rules g) -> r_lhs r < N.
Proof. intros H. apply In_nth_error in H as [i H]. eapply lhs_range; eauto. Qed.
Lemma lambda_ends lam : List.length lam = N -> ends (fun n => lambda_loop n g lam).
Proof.
  apply (loop_ends (fun n => lambda_loop n g) (fun lam => fold_left lambda_rule (g_rules g) (lam, false)) (fun lam => List.length lam = N) (fun lam => N * 1 - tot b2n lam)).
  - reflexivity.
  - intros l l' b Hl H. destruct (lambda_pass _ rule_lhs_lt _ _ _ _ Hl H) as (H1 & H2 & H3). split; auto. intros ->. destruct (H3 eq_refl) as [?|H4]; [discriminate|].
    pose proof (tot_le b2n l' 1 ltac:(intros []; cbn; lia)). rewrite H1 in *. lia.
Qed.

(** ** First sets *)
Definition sources : list nat := flat_map (fun r => flat_map (fun p => match sy_kind (gsym g (fst p)) with KTerm => [fst p] | KMulti ms => ms | KNonTerm => [] end) (r_rhs r)) (g_rules g).
Definition inside (fs : list (list nat)) : Prop := List.length fs = N /\ forall l, In l fs -> incl l sources.
Lemma inside_of fs X : inside fs -> incl (First.first_of fs X) sources.
Proof.
  intros [_ H]. unfold First.first_of. destruct (nth_in_or_default X fs []) as [Hi|Hi]; [now apply H|]. rewrite Hi. intros ? [].
Qed.
Lemma inside_upd fs s l : inside fs -> incl l sources -> inside (upd fs s (fun _ => l)).
Proof.
  intros [H1 H2] Hl. split; [now rewrite upd_length|]. intros l' Hi. apply In_nth_error in Hi as [j Hj]. destruct (Nat.eq_dec s j) as [->|Hn].
  - rewrite nth_error_upd_same in Hj. destruct (nth_error fs j); [|discriminate]. now injection Hj as <-.
  - rewrite nth_error_upd_other in Hj by auto. apply H2. eapply nth_error_In; eauto.
Qed.
Definition weight := tot (wt sources).
Lemma first_grow fs s w : inside fs -> s < N -> incl w sources -> let old := First.first_of fs s in let new := sunion old w in let fs' := upd fs s (fun _ => new) in
  inside fs' /\ weight fs <= weight fs' /\ ((List.length old <? List.length new) = true -> weight fs < weight fs').
Proof.
  intros Hi Hs Hw old new fs'. destruct (union_wt sources old w Hw) as (H1 & H2 & H3). fold new in H1, H2, H3.
  assert (Hn : incl new sources). { intros x Hx. apply sunion_in in Hx as [Hx|Hx]; auto. eapply inside_of; eauto. }
  pose proof (tot_upd (wt sources) fs s (fun _ => new) [] ltac:(destruct Hi; lia)) as T. fold fs' in T. change (nth s fs []) with old in T. unfold weight. splits.
  - now apply inside_upd.
  - lia.
  - intros Hl. apply Nat.ltb_lt in Hl. specialize (H3 Hl). lia.
Qed.
Lemma sadd_sunion x s : sadd x s = sunion s [x]. Proof. reflexivity. Qed.

Lemma first_rhs_grow lam s : s < N -> forall rhs fs pr fs' pr', inside fs ->
  (forall p, In p rhs -> exists r, In r (g_rules g) /\ In p (r_rhs r)) -> first_rhs g lam s rhs fs pr = (fs', pr') ->
  inside fs' /\ weight fs <= weight fs' /\ (pr' = true -> pr = true \/ weight fs < weight fs').
Proof.
  intros Hs. induction rhs as [|[s2 al] rhs IH]; intros fs pr fs' pr' Hi Hin H; cbn [first_rhs] in H.
  - injection H as <- <-. splits; auto.
  - assert (Hrest : forall p, In p rhs -> exists r, In r (g_rules g) /\ In p (r_rhs r)) by (intros; apply Hin; now right).
    destruct (s =? s2).
    { destruct (lam_of lam s); [now apply IH in H|]. injection H as <- <-. splits; auto. }
    destruct (Hin _ (or_introl eq_refl)) as (r & Hr & Hp).
    assert (Hsrc : forall u, In u (match sy_kind (gsym g s2) with KTerm => [s2] | KMulti ms => ms | KNonTerm => [] end) -> In u sources).
    { intros u Hu. apply in_flat_map. exists r. split; auto. apply in_flat_map. exists (s2, al). auto. }
    destruct (sy_kind (gsym g s2)) as [| |ms] eqn:Ek.
    + rewrite sadd_sunion in H. injection H as <- <-. destruct (first_grow fs s [s2] Hi Hs) as (H1 & H2 & H3); [exact Hsrc|]. splits; auto. intros Hb. apply orb_true_iff in Hb as [->|Hb]; auto.
    + destruct (first_grow fs s (First.first_of fs s2) Hi Hs) as (H1 & H2 & H3); [eapply inside_of; eauto|].
      assert (H4 : pr || (List.length (First.first_of fs s) <? List.length (sunion (First.first_of fs s) (First.first_of fs s2))) = true -> pr = true \/ weight fs < weight (upd fs s (fun _ => sunion (First.first_of fs s) (First.first_of fs s2)))).
      { intros Hb. apply orb_true_iff in Hb as [->|Hb]; auto. }
      destruct (lam_of lam s2).
      * apply IH in H as (H5 & H6 & H7); auto. splits; auto; try lia. intros Hb. apply H7 in Hb as [Hb|Hb]; [|right; lia]. apply H4 in Hb as [Hb|Hb]; auto. right. lia.
      * injection H as <- <-. splits; auto.
    + injection H as <- <-. destruct (first_grow fs s ms Hi Hs) as (H1 & H2 & H3); [exact Hsrc|]. splits; auto. intros Hb. apply orb_true_iff in Hb as [->|Hb]; auto.
Qed.
Lemma first_pass_grow lam l : (forall r, In r l -> In r (g_rules g)) -> forall fs pr fs' pr', inside fs ->
  fold_left (fun st r => first_rhs g lam (r_lhs r) (r_rhs r) (fst st) (snd st)) l (fs, pr) = (fs', pr') ->
  inside fs' /\ weight fs <= weight fs' /\ (pr' = true -> pr = true \/ weight fs < weight fs').
Proof.
  induction l as [|r l IH]; intros Hr fs pr fs' pr' Hi H; cbn [fold_left] in H.
  - injection H as <- <-. splits; auto.
  - specialize (IH (fun r' Hr' => Hr r' (or_intror Hr'))). specialize (Hr r (or_introl eq_refl)). cbn [fst snd] in H.
    destruct (first_rhs g lam (r_lhs r) (r_rhs r) fs pr) as [fs1 pr1] eqn:E.
    apply first_rhs_grow in E as (H1 & H2 & H3); auto using rule_lhs_lt; [|intros p Hp; eauto].
    apply IH in H as (H4 & H5 & H6); auto. splits; auto; try lia. intros Hb. apply H6 in Hb as [Hb|Hb]; [|right; lia]. apply H3 in Hb as [Hb|Hb]; auto. right. lia.
Qed.
Lemma first_ends lam fs : inside fs -> ends (fun n => first_loop n g lam fs).
Proof.
  apply (loop_ends (fun n => first_loop n g lam) (fun fs => fold_left (fun st r => first_rhs g lam (r_lhs r) (r_rhs r) (fst st) (snd st)) (g_rules g) (fs, false)) inside (fun fs => N * List.length sources - weight fs)).
  - reflexivity.
  - intros l l' b Hl H. destruct (first_pass_grow lam (g_rules g) ltac:(auto) _ _ _ _ Hl H) as (H1 & H2 & H3). split; auto. intros ->. destruct (H3 eq_refl) as [?|H4]; [discriminate|].
    pose proof (tot_le (wt sources) l' (List.length sources) (wt_le sources)) as T. destruct H1 as [L _]. rewrite L in T. unfold weight in *. lia.
Qed.
Lemma firsts_end : ends (fun n => find_first_sets n g).
Proof.
  apply (ends_bind (fun n => lambda_loop n g _) (fun n lam => fs <-! first_loop n g lam _ ; GOk (mkFirsts lam fs))).
  - apply lambda_ends. apply repeat_length.
  - intros _ lam _. apply (ends_bind (fun n => first_loop n g lam _) (fun _ fs => GOk (mkFirsts lam fs))).
    + apply first_ends. split; [apply repeat_length|]. intros l Hl. apply repeat_spec in Hl. subst l. intros ? [].
    + intros _ fs _. apply ends_const. discriminate.
Qed.

(** ** States *)
Context (fi : firsts) (F : fi_ok g fi).

(** All items *)
Definition all_keys : list key := flat_map (fun r => map (fun d => (r, d)) (seq 0 (S (List.length (r_rhs (grule g r)))))) (seq 0 (List.length (g_rules g))).
Lemma valid_key k : kvalid g k -> In k all_keys.
Proof.
  destruct k as [r d]. intros [H1 H2]. cbn in *. apply in_flat_map. exists r. split; [apply in_seq; lia|]. apply in_map. apply in_seq. lia.
Qed.
Definition KB : nat := S (List.length all_keys).

Lemma closure_blame B0 cs0 : (forall i, In i B0 -> i < List.length cs0) -> forall n i cur cs, CI g B0 cs0 cur cs -> i <= List.length cur -> KB <= n + i -> closure_loop n g fi i cur cs <> GFuel.
Proof.
  intros HB. induction n as [|n IH]; intros i cur cs C Hi Hn.
  - exfalso. assert (List.length cur <= List.length all_keys).
    { rewrite <- (map_length (ckey cs)). apply NoDup_incl_length; [apply (ci_nodup _ _ _ _ _ C)|]. intros k Hk. apply in_map_iff in Hk as (c & <- & Hc). apply valid_key. eapply ci_valid; eauto. }
    unfold KB in Hn. lia.
  - cbn [closure_loop]. destruct (nth_error cur i) as [cfp|] eqn:Ei; [|discriminate]. assert (Hl : i < List.length cur) by (apply nth_error_Some; congruence).
    assert (Hcfp : In cfp cur) by (eapply nth_error_In; eauto). assert (Hskip : closure_loop n g fi (S i) cur cs <> GFuel) by (apply IH; auto; lia).
    destruct (nth_error (r_rhs (grule g (c_rule (cfg cs cfp)))) (c_dot (cfg cs cfp))) as [[sp al]|] eqn:Ed; auto.
    assert (Hpost : kpost g (ckey cs cfp) = Some sp). { unfold kpost, ckey. cbn [fst snd]. rewrite Ed. reflexivity. }
    destruct (sy_kind (gsym g sp)) eqn:Ek; auto. destruct (rules_of g sp) as [|q0 qs0] eqn:Er; [destruct (sp =? g_error g); auto; discriminate|]. rewrite <- Er.
    destruct (fold_left _ _ _) as [cur1 cs1] eqn:Ef. eapply (closure_rules_spec g fi W F B0 cs0 cfp sp (ckey cs cfp)) in Ef as (C1 & G1 & I1 & H1); eauto using incl_refl.
    apply IH; auto; [|lia]. destruct (ci_cur _ _ _ _ _ C) as (n0 & Hc0 & Hl0). destruct (ci_cur _ _ _ _ _ C1) as (n1 & Hc1 & Hl1). pose proof (cg_len _ _ G1) as Hg.
    rewrite Hc0 in Hl. rewrite Hc1. rewrite app_length, seq_length in *. lia.
Qed.

(** All sorted sets of items are sublists of the sorted list of all items; there are
    finitely many lists without repetition over a finite set. *)
Fixpoint lists_upto (U : list key) (n : nat) : list (list key) :=
  match n with 0 => [[]] | S m => [] :: flat_map (fun u => map (cons u) (lists_upto U m)) U end.
Lemma lists_upto_in U : forall n l, List.length l <= n -> incl l U -> In l (lists_upto U n).
Proof.
  induction n as [|n IH]; intros l Hl Hi; destruct l as [|k l]; cbn in *; auto; try lia. right. apply in_flat_map. exists k. split; [apply Hi; now left|]. apply in_map. apply IH; [lia|].
  intros x Hx. apply Hi. now right.
Qed.
Definition SB : nat := List.length (lists_upto all_keys (List.length all_keys)).
Lemma few_states p : Inv g p -> List.length (p_states p) <= SB.
Proof.
  intros I. rewrite <- (map_length (fun st => map (ckey (p_cfgs p)) (s_basis st))). apply NoDup_incl_length.
  - apply NoDup_nth_error. intros i j Hi E. rewrite map_length in Hi. rewrite !nth_error_map in E. destruct (nth_error (p_states p) i) as [st1|] eqn:E1; [|apply nth_error_None in E1; lia].
    destruct (nth_error (p_states p) j) as [st2|] eqn:E2; [|discriminate]. cbn in E. injection E as E. eapply (iv_uniq _ _ I); eauto.
  - intros ks Hk. apply in_map_iff in Hk as (st & <- & Hst). apply In_nth_error in Hst as [s Hs]. destruct (iv_sorted _ _ I s st Hs) as [_ Hnd].
    assert (Hv : incl (map (ckey (p_cfgs p)) (s_basis st)) all_keys).
    { intros k Hk. apply in_map_iff in Hk as (c & <- & Hc). apply valid_key. pose proof (iv_si _ _ I s st Hs) as S0. apply (si_valid _ _ _ _ _ S0). now apply (si_basis _ _ _ _ _ S0). }
    apply lists_upto_in; auto. now apply NoDup_incl_length.
Qed.

Lemma get_halts : forall n cur p, getpre g cur p -> KB + S (SB - List.length (p_states p)) <= n -> get_state n g fi cur p <> GFuel.
Proof.
  induction n as [|n IH]; intros cur p Hp Hn; [lia|]. cbn [get_state]. set (bp := ssort (config_less (p_cfgs p)) cur) in *.
  destruct (state_find p bp) as [s|] eqn:Ef; [discriminate|].
  destruct (configlist_closure (S n) g fi cur (p_cfgs p)) as [[configs cs]|e| |] eqn:Ec; cbn [gbind]; try discriminate.
  - destruct (get_new g fi W F _ _ _ _ _ Hp Ef Ec) as (I1 & X1 & C1 & B1 & K1). fold bp in I1, X1, C1, B1, K1.
    set (L := ssort (config_less cs) configs) in *. set (p1 := mkPst (reset_status cs L) (p_states p ++ [mkState L bp []])) in *.
    set (id := List.length (p_states p)) in *. set (st := mkState L bp []) in *.
    assert (Hid : nth_error (p_states p1) id = Some st). { unfold p1, id. cbn [p_states]. rewrite nth_error_app2, Nat.sub_diag by auto. reflexivity. }
    assert (Hl0 : links g p1 (s_configs st) []) by (intros X t []).
    pose proof (loop_full g fi n (get_state_spec g fi W F n) id st L [] [] p1 I1 Hid eq_refl) as HL.
    change (acts_of g []) with (@nil action) in HL.
    destruct (build_shifts_loop g (get_state n g fi) L [] p1) as [[aps p2]|e| |] eqn:Eb; cbn [gbind]; try discriminate.
    destruct HL as (cur' & q & H1 & H2 & H3); auto.
    { intros c Hc. split; [intros Hcc; rewrite C1 in Hcc by exact Hc; discriminate|]. intros (X & _ & []). }
    { intros X []. } { constructor. }
    exfalso. revert H3. apply IH; auto. assert (EL : List.length (p_states p1) = S id) by (unfold p1; cbn [p_states]; rewrite app_length; cbn; unfold id; lia).
    pose proof (few_states q (gp_inv _ _ _ H1)). pose proof (few_states p1 I1). lia.
  - exfalso. revert Ec. unfold configlist_closure. apply (closure_blame cur (p_cfgs p)).
    + intros i Hi. now apply (gp_cur _ _ _ Hp).
    + destruct Hp as [I Hc Hk Hs]. constructor; auto using cgrow_refl.
      * exists 0. simpl. rewrite app_nil_r. split; auto.
      * intros. contradiction.
      * intros i Hi. now apply Hc.
      * intros i Hi. apply cr_base. now apply in_map.
    + lia.
    + unfold KB in *. lia.
Qed.

Lemma closure_more : forall n n' i cur cs r, closure_loop n g fi i cur cs = r -> r <> GFuel -> n <= n' -> closure_loop n' g fi i cur cs = r.
Proof.
  induction n as [|n IH]; intros n' i cur cs r H Hr Hn; [cbn in H; congruence|]. destruct n' as [|n']; [lia|]. cbn [closure_loop] in *.
  destruct (nth_error cur i); auto. destruct (nth_error _ _) as [[sp al]|]; [|eapply IH; eauto; lia]. destruct (sy_kind (gsym g sp)); try (eapply IH; eauto; lia).
  destruct (rules_of g sp); [destruct (sp =? g_error g); auto; eapply IH; eauto; lia|]. destruct (fold_left _ _ _). eapply IH; eauto; lia.
Qed.
Lemma shifts_more (get get' : list nat -> pst -> gres (nat * pst)) : (forall cur p r, get cur p = r -> r <> GFuel -> get' cur p = r) ->
  forall l aps p r, build_shifts_loop g get l aps p = r -> r <> GFuel -> build_shifts_loop g get' l aps p = r.
Proof.
  intros HG. induction l as [|c l IH]; intros aps p r H Hr; cbn [build_shifts_loop] in *; auto. destruct (c_complete _); auto. destruct (shift_sym _ _) as [sp|]; auto.
  destruct (shift_basis _ _ _ _ _) as [basis cs]. destruct (get basis (mkPst cs (p_states p))) as [[ns p']|e| |] eqn:E; cbn [gbind] in H; try (apply HG in E; [rewrite E; cbn [gbind]; auto|discriminate]).
  exfalso. auto.
Qed.
Lemma get_more : forall n n' cur p r, get_state n g fi cur p = r -> r <> GFuel -> n <= n' -> get_state n' g fi cur p = r.
Proof.
  induction n as [|n IH]; intros n' cur p r H Hr Hn; [cbn in H; congruence|]. destruct n' as [|n']; [lia|]. cbn [get_state] in *. destruct (state_find _ _); auto.
  destruct (configlist_closure (S n) g fi cur (p_cfgs p)) as [[configs cs]|e| |] eqn:E; cbn [gbind] in H; [| | |congruence];
    (apply (closure_more (S n) (S n')) in E; [|discriminate|lia]; unfold configlist_closure; rewrite E; cbn [gbind]; auto).
  match type of H with gbind ?a _ = _ => destruct a as [[aps p2]|e| |] eqn:Eb end; cbn [gbind] in H; [| | |congruence];
    (apply (shifts_more _ (get_state n' g fi)) in Eb; [|intros; eapply IH; eauto; lia|discriminate]; rewrite Eb; cbn [gbind]; auto).
Qed.

Lemma states_end : ends (fun n => find_states n g fi).
Proof.
  unfold find_states. destruct (existsb _ _); [apply ends_const; discriminate|]. destruct (start_basis g) as [basis cs] eqn:Es.
  apply (ends_bind (fun n => get_state n g fi basis (mkPst cs [])) (fun _ '(_, p) => GOk p)).
  - set (n := KB + S SB). exists n, (get_state n g fi basis (mkPst cs [])). assert (H : get_state n g fi basis (mkPst cs []) <> GFuel).
    { apply get_halts; [|cbn [p_states List.length]; unfold n; lia]. eapply start_basis_spec; eauto. }
    split; auto. intros n' Hn. eapply get_more; eauto.
  - intros _ [t p] _. apply ends_const. discriminate.
Qed.
End Firsts.

(** ** Follow sets *)
Section Follows.
Context (all U : list nat) (N : nat).
Definition fwt (c : config) : nat := wt U (c_fws c).
Record FL (cs : list config) : Prop := {
  fl_len : List.length cs = N;
  fl_range : forall c, In c all -> c < N;
  fl_link : forall c q, In c all -> In q (c_fplp (cfg cs c)) -> In q all;
  fl_in : forall c, incl (c_fws (cfg cs c)) U }.

Lemma FL_upd cs q f : FL cs -> (forall c, c_fplp (f c) = c_fplp c) -> incl (c_fws (f (cfg cs q))) U -> FL (upd cs q f).
Proof.
  intros [F1 F2 F3 F4] H1 H2. constructor; auto.
  - now rewrite upd_length.
  - intros c x Hc. rewrite cfg_upd. destruct (_ && _); [rewrite H1|]; eauto.
  - intros c. rewrite cfg_upd. destruct (Nat.eqb_spec q c) as [->|]; cbn [andb]; auto. destruct (c <? _); auto.
Qed.
Lemma tot_cfg cs q f : q < List.length cs -> tot fwt (upd cs q f) + fwt (cfg cs q) = tot fwt cs + fwt (f (cfg cs q)).
Proof. apply tot_upd. Qed.

Lemma follow_prop w : incl w U -> forall qs cs pr cs' pr', incl qs all -> FL cs ->
  fold_left (fun '(cs, progress) q =>
        let old := c_fws (cfg cs q) in let new := sunion old w in
        if List.length old <? List.length new
        then (upd cs q (fun x => cfg_set_complete false (cfg_set_fws new x)), true)
        else (upd cs q (cfg_set_fws new), progress)) qs (cs, pr) = (cs', pr') ->
  FL cs' /\ tot fwt cs <= tot fwt cs' /\ (pr' = true -> pr = true \/ tot fwt cs < tot fwt cs').
Proof.
  intros Hw. induction qs as [|q qs IH]; intros cs pr cs' pr' Hq HF H; cbn [fold_left] in H.
  - injection H as <- <-. splits; auto.
  - assert (Hlq : q < List.length cs) by (rewrite (fl_len _ HF); apply (fl_range _ HF), Hq; now left). destruct (union_wt U (c_fws (cfg cs q)) w Hw) as (U1 & U2 & U3).
    assert (Hin : incl (sunion (c_fws (cfg cs q)) w) U). { intros x Hx. apply sunion_in in Hx as [Hx|Hx]; auto. eapply fl_in; eauto. }
    cbv zeta in H. destruct (List.length (c_fws (cfg cs q)) <? List.length (sunion (c_fws (cfg cs q)) w)) eqn:El.
    + apply Nat.ltb_lt in El. specialize (U3 El). pose proof (tot_cfg cs q (fun x => cfg_set_complete false (cfg_set_fws (sunion (c_fws (cfg cs q)) w) x)) Hlq) as T. unfold fwt at 2 4 in T. cbn [cfg_set_complete cfg_set_fws c_fws] in T.
      apply IH in H as (H1 & H2 & H3); [|intros x Hx; apply Hq; now right|apply FL_upd; auto]. splits; auto; lia.
    + pose proof (tot_cfg cs q (cfg_set_fws (sunion (c_fws (cfg cs q)) w)) Hlq) as T. unfold fwt at 2 4 in T. cbn [cfg_set_fws c_fws] in T.
      apply IH in H as (H1 & H2 & H3); [|intros x Hx; apply Hq; now right|apply FL_upd; auto]. splits; auto; try lia. intros Hb. apply H3 in Hb as [Hb|Hb]; auto. right. lia.
Qed.
Lemma follow_pass : forall l cs pr cs' pr', incl l all -> FL cs -> fold_left follow_step l (cs, pr) = (cs', pr') ->
  FL cs' /\ tot fwt cs <= tot fwt cs' /\ (pr' = true -> pr = true \/ tot fwt cs < tot fwt cs').
Proof.
  induction l as [|c l IH]; intros cs pr cs' pr' Hl HF H; cbn [fold_left] in H.
  - injection H as <- <-. splits; auto.
  - assert (Hc : In c all) by (apply Hl; now left). assert (Hl' : incl l all) by (intros x Hx; apply Hl; now right). unfold follow_step in H at 2. destruct (c_complete (cfg cs c)); [now apply IH in H|].
    destruct (fold_left _ (c_fplp (cfg cs c)) (cs, pr)) as [cs1 pr1] eqn:E. apply follow_prop in E as (H1 & H2 & H3); auto.
    + pose proof (tot_cfg cs1 c (cfg_set_complete true) ltac:(rewrite (fl_len _ H1); apply (fl_range _ H1), Hc)) as T. unfold fwt at 2 4 in T. cbn [cfg_set_complete c_fws] in T.
      apply IH in H as (H4 & H5 & H6); auto.
      * splits; auto; try lia. intros Hb. apply H6 in Hb as [Hb|Hb]; [|right; lia]. apply H3 in Hb as [Hb|Hb]; auto. right. lia.
      * apply FL_upd; auto. cbn. apply (fl_in _ H1).
    + apply (fl_in _ HF).
    + intros q Hq. eapply fl_link; eauto.
Qed.
Lemma follow_ends cs : FL cs -> ends (fun n => follow_loop n all cs).
Proof.
  apply (loop_ends (fun n => follow_loop n all) (fun cs => fold_left follow_step all (cs, false)) FL (fun cs => N * List.length U - tot fwt cs)).
  - reflexivity.
  - intros l l' b Hl H. destruct (follow_pass all _ _ _ _ (incl_refl _) Hl H) as (H1 & H2 & H3). split; auto. intros ->. destruct (H3 eq_refl) as [?|H4]; [discriminate|].
    pose proof (tot_le fwt l' (List.length U) (fun c => wt_le U (c_fws c))) as T. rewrite (fl_len _ H1) in T. lia.
Qed.
End Follows.

Lemma follows_end g fi fuel p : wf_grammar g -> fi_ok g fi -> find_states fuel g fi = GOk p -> ends (fun n => find_follow_sets n (find_links p)).
Proof.
  intros W F H. pose proof (find_states_spec g fi W F fuel p H) as (I & _). destruct (find_links_spec p) as (L1 & L2 & L3 & L4). set (p1 := find_links p) in *.
  apply (ends_bind (fun n => follow_loop n (all_configs p1) _) (fun _ cs => GOk (mkPst cs (p_states p1)))).
  - destruct (reset_status_spec (all_configs p1) (p_cfgs p1)) as [RL RS]. set (cs0 := reset_status (p_cfgs p1) (all_configs p1)) in *.
    apply (follow_ends (all_configs p1) (flat_map c_fws cs0) (List.length (p_cfgs p1))). constructor.
    + exact RL.
    + intros c. unfold all_configs. rewrite L1, L2. apply (iv_range _ _ I).
    + intros c q Hc Hq. destruct (RS c) as (R1 & R2 & R3 & R4 & _). eapply (links_closed g fi W F p fuel H); eauto. fold p1. destruct (RS c). intuition congruence.
    + intros c x Hx. apply in_flat_map. unfold cfg in *. destruct (nth_in_or_default c cs0 dummy_cfg) as [Hi|Hi]; [eauto|]. rewrite Hi in Hx. destruct Hx.
  - intros _ cs _. apply ends_const. discriminate.
Qed.

(** ** The steps that have no unbounded loop *)
Lemma nf_bind {A B} (x : gres A) (f : A -> gres B) : x <> GFuel -> (forall a, x = GOk a -> f a <> GFuel) -> gbind x f <> GFuel.
Proof. destruct x; cbn; intros H1 H2; auto; congruence. Qed.
Lemma nf_gfold {A S} (f : S -> A -> gres S) : (forall s a, f s a <> GFuel) -> forall l s, gfold f l s <> GFuel.
Proof. intros H. induction l as [|a l IH]; intros s; cbn [gfold]; [discriminate|]. apply nf_bind; auto. Qed.
Lemma nf_symbol_new f n t : symbol_new f n t <> GFuel.
Proof. unfold symbol_new. destruct (if (n =? "")%string then None else _); [destruct t; try discriminate; destruct (sy_kind (get_sym f n0))|]; discriminate. Qed.
Lemma nf_create_rule f l r c p : create_rule f l r c p <> GFuel.
Proof. unfold create_rule. destruct (sy_kind (get_sym f l)); discriminate. Qed.
Ltac nf := repeat match goal with
  | |- GOk _ <> GFuel => discriminate
  | |- GErr _ <> GFuel => discriminate
  | |- GPanic <> GFuel => discriminate
  | |- gbind _ _ <> GFuel => apply nf_bind; [|intros ? _; cbv beta]
  | |- gfold _ _ _ <> GFuel => apply nf_gfold; intros; cbv beta
  | |- symbol_new _ _ _ <> GFuel => apply nf_symbol_new
  | |- create_rule _ _ _ _ _ <> GFuel => apply nf_create_rule
  | |- (let '(_, _) := ?x in _) <> GFuel => destruct x
  | |- (let '(_, _) := ?x in _) _ <> GFuel => destruct x
  | |- (if ?x then _ else _) <> GFuel => destruct x
  | |- (match ?x with _ => _ end) <> GFuel => destruct x
  end.
Lemma nf_rhs_elem f e : rhs_elem_sym f e <> GFuel.
Proof. destruct e as [[toks o] alias]. unfold rhs_elem_sym. nf. Qed.
Lemma nf_prepare ord f : prepare ord f <> GFuel.
Proof. unfold prepare, optional_rules. nf. Qed.
Lemma nf_normalize g : normalize_rules g <> GFuel.
Proof. unfold normalize_rules, normalize_rule. nf. Qed.
Lemma nf_find_actions g p : find_actions g p <> GFuel.
Proof. unfold find_actions. nf. Qed.
Lemma nf_generate g p : generate_source g p <> GFuel.
Proof. unfold generate_source, type_symbols, type_symbol, pack_states, pack_all, pack_one, insert_action_set, ofst_table, fallback_table, gmapM, translate_code. nf. Qed.

(** ** Fallback chains *)
Lemma check_more : forall n n' f syms fbx r, fallback_check n f syms fbx = r -> r <> GFuel -> n <= n' -> fallback_check n' f syms fbx = r.
Proof.
  induction n as [|n IH]; intros n' f syms fbx r H Hr Hn; [cbn in H; congruence|]. destruct n' as [|n']; [lia|]. cbn [fallback_check] in *.
  destruct (sy_fb _); auto. destruct (smem _ _); auto. eapply IH; eauto. lia.
Qed.
Lemma check_ends f syms fbx : acyc f -> ends (fun n => fallback_check n f syms fbx).
Proof.
  intros A. enough (H : forall n fbx vis, NoDup vis -> (forall v, In v vis -> v < List.length (f_syms f) /\ exists v', fbstep f v v' /\ fbs f v' fbx) ->
     List.length vis + n = S (List.length (f_syms f)) -> fallback_check n f syms fbx <> GFuel).
  { set (n := S (List.length (f_syms f))). exists n, (fallback_check n f syms fbx).
    assert (Hn : fallback_check n f syms fbx <> GFuel) by (apply (H n fbx []); [constructor|intros ? []|reflexivity]). split; auto. intros n' Hle. eapply check_more; eauto. }
  clear fbx. induction n as [|n IH]; intros fbx vis Hn Hv Hl.
  - exfalso. assert (List.length vis <= List.length (f_syms f)); [|lia]. rewrite <- (seq_length (List.length (f_syms f)) 0). apply NoDup_incl_length; auto.
    intros v Hi. apply in_seq. destruct (Hv v Hi). lia.
  - cbn [fallback_check]. destruct (sy_fb (get_sym f fbx)) as [nx|] eqn:E; [|discriminate]. destruct (smem nx syms); [discriminate|].
    assert (Hst : fbstep f fbx nx /\ fbx < List.length (f_syms f)).
    { unfold get_sym in E. destruct (nth_error (f_syms f) fbx) as [s|] eqn:Es; [|apply nth_error_None in Es; rewrite nth_overflow in E by auto; discriminate].
      rewrite (nth_error_nth _ _ _ Es) in E. split; [exists s; auto|]. apply nth_error_Some. congruence. }
    destruct Hst as [Hst Hlt]. apply (IH nx (fbx :: vis)); [|intros v [<-|Hi]|cbn; lia].
    + constructor; auto. intros Hi. destruct (Hv _ Hi) as (_ & v' & H1 & H2). eapply A; eauto.
    + split; auto. exists nx. split; auto. constructor.
    + destruct (Hv _ Hi) as (H0 & v' & H1 & H2). split; auto. exists v'. split; auto. econstructor; eauto.
Qed.

Lemma differs_ends g acts d la : acyclic_fb g -> ends (fun n => fallback_differs n g acts d la).
Proof.
  intros A. pose proof (fb_ends_acyclic g (mkPst [] []) A la) as H. induction H as [a n Hf|a c n Hf He IH]; unfold fb in Hf.
  - exists 1, (GOk false). split; [discriminate|]. intros [|n'] Hn; [lia|]. cbn [fallback_differs]. now rewrite Hf.
  - destruct IH as (m & r & H1 & H2). destruct (find (fun x => a_la x =? c) acts) as [a2|] eqn:Ef.
    + destruct (detail_equal d (a_det a2)) eqn:Ed; [exists (S m), r|exists 1, (GOk true)]; (split; [auto; discriminate|]; intros [|n'] Hn; [lia|]; cbn [fallback_differs]; rewrite Hf, Ef, Ed; auto).
      apply H2. lia.
    + exists (S m), r. split; auto. intros [|n'] Hn; [lia|]. cbn [fallback_differs]. rewrite Hf, Ef. apply H2. lia.
Qed.
Lemma compress_ends g p : acyclic_fb g -> ends (fun n => compress_tables n g p).
Proof.
  intros A. unfold compress_tables. apply (ends_bind (fun n => gfold (fun acc s => s' <-! compress_state n g s ; GOk (acc ++ [s'])) (p_states p) []) (fun _ sts => GOk (mkPst (p_cfgs p) sts))); [|intros; apply ends_const; discriminate].
  apply (ends_gfold (fun n acc s => s' <-! compress_state n g s ; GOk (acc ++ [s'])) (fun _ => True)); auto. intros acc s _ _. split; auto.
  apply (ends_bind (fun n => compress_state n g s) (fun _ s' => GOk (acc ++ [s']))); [|intros; apply ends_const; discriminate].
  unfold compress_state. apply (ends_bind (fun n => ignored_actions n g (s_actions s)) (fun _ ign => let b := find_best g ign (s_actions s) (mkBest 0 None false) in
    match b_rule b with None => GOk s | Some rbest => if b_wild b then GOk s else GOk (st_set_actions (ssort action_less (make_default g ign rbest (s_actions s))) s) end)).
  - unfold ignored_actions. destruct (f_has_fb (g_fe g)); [|apply ends_const; discriminate].
    apply (ends_gfold (fun n ign a => b <-! fallback_differs n g (s_actions s) (a_det a) (a_la a) ; GOk (if b then sadd (a_la a) ign else ign)) (fun _ => True)); auto. intros ign a _ _. split; auto.
    apply (ends_bind (fun n => fallback_differs n g (s_actions s) (a_det a) (a_la a)) (fun _ b => GOk (if b then sadd (a_la a) ign else ign))); [|intros; apply ends_const; discriminate].
    now apply differs_ends.
  - intros _ ign _. apply ends_const. cbv zeta. nf.
Qed.

(** ** The declarations *)
Lemma one_decl_ends f d : FI f -> acyc f -> ends (fun n => parse_one_decl n f d).
Proof.
  intros HF A. destruct d; try (unfold parse_one_decl; apply ends_const; nf; fail).
  - unfold parse_one_decl. eapply (ends_bind (fun _ => _) (fun n '(syms, f1) => _)); [apply ends_const; nf|]. intros _ [syms f1] E1. destruct (is_terminal_ident fb); [|apply ends_const; discriminate].
    eapply (ends_bind (fun _ => _) (fun n '(fbs, f2) => _)); [apply ends_const; nf|]. intros _ [fbs f2] E2.
    eapply (ends_bind (fun n => fallback_check n f2 syms fbs) (fun _ _ => _)); [|intros; apply ends_const; nf].
    apply check_ends. apply terms_fold_fb in E1. apply symbol_new_fb in E2. eapply fb_same_acyc; [|exact A]. eapply fb_same_trans; eauto.
  - unfold parse_one_decl. apply ends_const. nf. apply nf_rhs_elem.
Qed.
Lemma decls_end ds : no_self_fallback ds -> ends (fun n => new_from_decls n ds).
Proof.
  intros Hs. unfold new_from_decls. eapply (ends_bind (fun n => gfold (parse_one_decl n) ds fe_init) (fun _ f => _)); [|intros; apply ends_const; nf].
  apply (ends_gfold (fun n f d => parse_one_decl n f d) (fun f => FI f /\ acyc f)).
  - split; [apply init_FI|]. intros a c (s & H & Hc) _. destruct a as [|[|a]]; cbn in H; try (injection H as <-; discriminate). destruct a; discriminate.
  - intros f d Hd [HF A]. split; [now apply one_decl_ends|]. intros n f' H. split; [eapply parse_one_decl_FI; eauto|]. eapply parse_one_decl_acyc; eauto.
    intros (fb & ids & -> & Hi). eapply Hs; eauto.
Qed.

(** The macro comes to an end on every declaration list in which no %fallback lists its
    own target: with enough fuel the result is always the same, and is not [GFuel]. *)
Theorem expansion_ends ds ord : no_self_fallback ds -> hash_order ord -> ends (fun n => build n ord ds).
Proof.
  intros Hs Ho. unfold build. apply (ends_bind (fun n => new_from_decls n ds) (fun n f => build_fe n ord f)); [now apply decls_end|].
  intros n0 f Hf. pose proof (new_from_decls_spec _ _ _ Hf) as D.
  assert (A : acyc f).
  { unfold new_from_decls in Hf. apply gbind_ok in Hf as (f0 & Hd & Hf). apply decls_acyc in Hd.
    - apply gbind_ok in Hf as ([i f1] & Hn & Hf). apply symbol_new_fb in Hn. destruct (f_rules f1); [discriminate|]. injection Hf as <-. eapply fb_same_acyc; eauto.
    - intros d Hin (fb & ids & -> & Hids). eapply Hs; eauto. }
  unfold build_fe. eapply (ends_bind (fun _ => prepare ord f) (fun n g0 => _)); [apply ends_const, nf_prepare|]. intros _ g0 H0.
  eapply (ends_bind (fun _ => normalize_rules (find_rule_precedences g0)) (fun n g => _)); [apply ends_const, nf_normalize|]. intros _ g H1.
  pose proof (prepared_wf _ _ _ _ D Ho H0 H1) as W.
  assert (Ha : acyclic_fb g) by (apply normalize_rules_spec in H1 as (E1 & _); cbn in E1; eapply (prepared_acyclic ord f g0); eauto; now apply prepare_spec).
  apply (ends_bind (fun n => find_first_sets n g) (fun n fi => p1 <-! find_states n g fi ; p2 <-! find_follow_sets n (find_links p1) ; '(p3, nconflict) <-! find_actions g p2 ;
     if 0 <? nconflict then GErr EConflicts else p4 <-! compress_tables n g p3 ; t <-! generate_source g p4 ; GOk (mkBuilt g fi p2 p3 p4 t))); [now apply firsts_end|].
  intros n1 fi Hfi. pose proof (find_first_sets_exact n1 g fi W Hfi) as F.
  apply (ends_bind (fun n => find_states n g fi) (fun n p1 => p2 <-! find_follow_sets n (find_links p1) ; '(p3, nconflict) <-! find_actions g p2 ;
     if 0 <? nconflict then GErr EConflicts else p4 <-! compress_tables n g p3 ; t <-! generate_source g p4 ; GOk (mkBuilt g fi p2 p3 p4 t))); [now apply states_end|].
  intros n2 p1 Hp1. apply (ends_bind (fun n => find_follow_sets n (find_links p1)) (fun n p2 => '(p3, nconflict) <-! find_actions g p2 ;
     if 0 <? nconflict then GErr EConflicts else p4 <-! compress_tables n g p3 ; t <-! generate_source g p4 ; GOk (mkBuilt g fi p2 p3 p4 t))); [eapply follows_end; eauto|].
  intros n3 p2 Hp2. apply (ends_bind (fun _ => find_actions g p2) (fun n '(p3, nconflict) => if 0 <? nconflict then GErr EConflicts else p4 <-! compress_tables n g p3 ; t <-! generate_source g p4 ; GOk (mkBuilt g fi p2 p3 p4 t))); [apply ends_const, nf_find_actions|].
  intros _ [p3 nc] H3. destruct (0 <? nc); [apply ends_const; discriminate|].
  apply (ends_bind (fun n => compress_tables n g p3) (fun _ p4 => t <-! generate_source g p4 ; GOk (mkBuilt g fi p2 p3 p4 t))); [now apply compress_ends|].
  intros _ p4 _. apply ends_const. apply nf_bind; [apply nf_generate|discriminate].
Qed.
