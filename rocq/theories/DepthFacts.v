(** How tall the stack gets, and what a limit does about it (C50). *)
From Verif Require Import Base Syntax BaseFacts FrontEnd First States Actions Tables Runtime RunFacts.

Section Climb.
Context (len : nat -> nat).
(** The tallest stack met while the events [l], oldest first, happen to a stack of [k] entries; [len]
    gives the length of the right-hand side of a rule.  A reduction pops the right-hand side and
    then pushes the left-hand side, unless it is that of the root or its block failed. *)
Fixpoint climb (k : nat) (l : list event) : nat :=
  match l with
  | [] => 0
  | EvShift _ :: l' | EvError :: l' => max (S k) (climb (S k) l')
  | EvReduce r :: l' =>
      match l' with
      | [] | EvAccept :: _ => 0
      | _ => max (S (k - len r)) (climb (S (k - len r)) l')
      end
  | EvPop :: l' => climb (k - 1) l'
  | EvSyntaxError _ :: l' | EvDrop _ :: l' => climb k l'
  | EvAccept :: _ | EvParseFail :: _ | EvOverflow _ :: _ => 0
  end.
End Climb.

Section Bites.
Context (t : tables) {M X E R : Type} (h : hooks M X E R).
Notation u := (unlimited t).
Notation prs := (parser M X R).
Notation len := (fun r => List.length (rr_rhs (nth r (t_rules t) dummy_rt))).
Notation climb := (climb len).
Notation height p := (List.length (ps_stack p)).
Definition roomy (n : nat) : Prop := t_limit t = 0 \/ n <= t_limit t.
Lemma roomy_max a b : roomy (max a b) <-> roomy a /\ roomy b.
Proof. unfold roomy. lia. Qed.
Lemma roomy_dec a : roomy a \/ ~ roomy a.
Proof. unfold roomy. lia. Qed.
Lemma roomy_0 : roomy 0.
Proof. unfold roomy. lia. Qed.

(** The limited run is the other one when there is room for [c] entries, and overflows if not. *)
Definition bites {A} (c : nat) (r r0 : res M X E R A) : Prop := (roomy c -> r = r0) /\ (~ roomy c -> overflowed t h r).
Lemma bites_same {A} (r : res M X E R A) : bites 0 r r.
Proof. split; auto. intros H. destruct H. apply roomy_0. Qed.
Lemma over_bind {A B} (r : res M X E R A) (f : A -> prs -> res M X E R B) : overflowed t h r -> overflowed t h (rbind r f).
Proof. intros (e & p & a & m & l & x & -> & H). exists e, p, a, m, l, x. auto. Qed.
Lemma bites_bind {A B} c d (r r0 : res M X E R A) a p (f f0 : A -> prs -> res M X E R B) :
  bites c r r0 -> r0 = ROk a p -> bites d (f a p) (f0 a p) -> bites (max c d) (rbind r f) (rbind r0 f0).
Proof.
  intros [H1 H2] -> [H3 H4]. cbn [rbind]. split.
  - intros H. apply roomy_max in H as [Hc Hd]. rewrite H1 by auto. cbn. auto.
  - intros H. destruct (roomy_dec c) as [Hc|Hc]; [|now apply over_bind, H2]. rewrite H1 by auto. cbn. apply H4. intros Hd. apply H. now apply roomy_max.
Qed.
Lemma bites_err {A B} c (r r0 : res M X E R A) e p (f f0 : A -> prs -> res M X E R B) :
  bites c r r0 -> r0 = RErr e p -> bites c (rbind r f) (rbind r0 f0).
Proof.
  intros [H1 H2] ->. cbn [rbind]. split; intros H; [now rewrite H1|now apply over_bind, H2].
Qed.
Lemma bites_eq {A} c d (r r0 : res M X E R A) : c = d -> bites c r r0 -> bites d r r0.
Proof. now intros <-. Qed.

Lemma shift_bites (p : prs) q a m : bites (S (height p)) (yy_shift t h p q a m) (yy_shift u h p q a m) /\
  yy_shift u h p q a m = ROk tt (set_stack p (mkEntry q a m :: ps_stack p)).
Proof.
  split; [|reflexivity]. split.
  - intros H. unfold yy_shift. cbn [unlimited t_limit]. change (negb (0 =? 0)) with false. cbn [andb]. unfold roomy in H. destruct (Nat.eqb_spec (t_limit t) 0) as [E0|E0]; cbn [negb andb]; auto.
    replace (t_limit t <=? height p) with false; auto. symmetry. apply Nat.leb_gt. lia.
  - intros H. destruct (yy_shift_alike t h p q a m) as [Eq|Ho]; auto. exfalso. unfold yy_shift in Eq. cbn [unlimited t_limit] in Eq. change (negb (0 =? 0)) with false in Eq. cbn [andb] in Eq. unfold roomy in H.
    replace (t_limit t =? 0) with false in Eq by (symmetry; apply Nat.eqb_neq; lia). replace (t_limit t <=? height p) with true in Eq by (symmetry; apply Nat.leb_le; lia). cbn [negb andb] in Eq.
    destruct (h_overflow h a m (ps_extra p)); discriminate.
Qed.

(** The events [l] took [p] to [p1]. *)
Definition grown (p p1 : prs) (l : list event) : Prop := ps_log p1 = rev l ++ ps_log p.
Definition opens (l : list event) : Prop := match l with [] | EvAccept :: _ => False | _ => True end.
Lemma grown_nil p : grown p p []. Proof. reflexivity. Qed.
Lemma grown_step (p q p1 : prs) e l : ps_log q = e :: ps_log p -> grown q p1 l -> grown p p1 (e :: l).
Proof. unfold grown. intros H ->. rewrite H. cbn. now rewrite <- app_assoc. Qed.
Lemma grown_trans (p q p1 : prs) l l' : grown p q l -> grown q p1 l' -> grown p p1 (l ++ l').
Proof. unfold grown. intros H ->. now rewrite H, rev_app_distr, <- app_assoc. Qed.

Definition goes (p : prs) {A} (r r0 : res M X E R A) : Prop :=
  match r0 with
  | ROk _ p1 => exists l c, grown p p1 l /\ bites c r r0 /\ forall le, climb (height p) (l ++ le) = max c (climb (height p1) le)
  | RErr _ p1 => exists l c, grown p p1 l /\ bites c r r0 /\ climb (height p) l = c /\ opens l
  | _ => True
  end.

Lemma recover_goes n : forall st0 a m p, goes p (recover t h n st0 a m p) (recover u h n st0 a m p).
Proof.
  induction n as [|n IH]; intros st0 a m p; cbn [recover]; [exact I|].
  destruct (ps_stack p) as [|top rest] eqn:Es; [hnf; exists [], 0; splits; [apply grown_nil|apply bites_same|reflexivity]|].
  cbn [unlimited t_err t_nstate]. destruct (e_major top =? t_err t); [hnf; exists [], 0; splits; [apply grown_nil|apply bites_same|reflexivity]|].
  rewrite find_reduce_unl. destruct (find_reduce_action t (e_state top) (t_err t)) as [q| |]; try exact I.
  destruct (q <? t_nstate t).
  - rewrite expected_unl. destruct (h_syntax h a m (expected_tokens t st0) (ps_extra p)) as [x [v|e]].
    + set (p1 := log (set_extra p x) (EvSyntaxError a)). destruct (shift_bites p1 q (t_err t) v) as [HB HE].
      pose proof (bites_bind _ 0 _ _ tt _ (fun _ p2 => ROk tt (log p2 EvError)) (fun _ p2 => ROk tt (log p2 EvError)) HB HE (bites_same _)) as HB2.
      rewrite HE in *. cbn [rbind] in *. cbn [goes]. hnf; exists [EvSyntaxError a; EvError], (max (S (height p1)) 0). splits; [reflexivity|exact HB2|].
      intros le. cbn [app DepthFacts.climb]. change (height p1) with (height p). rewrite Nat.max_0_r. reflexivity.
    + hnf; exists [EvSyntaxError a], 0. splits; [reflexivity|apply bites_same|reflexivity|exact I].
  - specialize (IH st0 a m (log (set_stack p rest) EvPop)). unfold goes in IH |- *.
    assert (Hh : height p - 1 = List.length rest) by (rewrite Es; cbn; lia).
    destruct (recover u h n st0 a m (log (set_stack p rest) EvPop)) as [[] p1|e p1| |]; auto.
    + destruct IH as (l & c & HG & HB & HC). exists (EvPop :: l), c. splits; auto; [eapply grown_step; eauto; reflexivity|]. intros le. cbn [app DepthFacts.climb]. rewrite Hh. apply HC.
    + destruct IH as (l & c & HG & HB & HC & _). exists (EvPop :: l), c. splits; auto; [eapply grown_step; eauto; reflexivity|cbn [DepthFacts.climb]; now rewrite Hh|exact I].
Qed.

Definition goes2 (p : prs) {A} (r r0 : res M X E R A) : Prop :=
  match r0 with
  | ROk _ p1 => exists l c, grown p p1 l /\ bites c r r0 /\ opens l /\
      (ps_status p1 = Normal -> forall le, climb (height p) (l ++ le) = max c (climb (height p1) le)) /\ (ps_status p1 <> Normal -> climb (height p) l = c)
  | RErr _ p1 => exists l c, grown p p1 l /\ bites c r r0 /\ climb (height p) l = c /\ opens l
  | _ => True
  end.

Lemma recover_status n : forall st0 a m p, match recover u h n st0 a m p with ROk _ p1 => ps_status p1 = ps_status p | _ => True end.
Proof.
  induction n as [|n IH]; intros st0 a m p; cbn [recover]; [exact I|].
  destruct (ps_stack p) as [|top rest]; auto. destruct (e_major top =? t_err u); auto.
  destruct (find_reduce_action u (e_state top) (t_err u)) as [q| |]; auto. destruct (q <? t_nstate u); [|apply (IH st0 a m (log (set_stack p rest) EvPop))].
  destruct (h_syntax _ _ _ _ _) as [x [v|e]]; auto. destruct (shift_bites (log (set_extra p x) (EvSyntaxError a)) q (t_err u) v) as [_ ->]. reflexivity.
Qed.

Lemma error_goes st0 a m p : ps_status p = Normal -> goes2 p (syntax_error t h p st0 a m) (syntax_error u h p st0 a m).
Proof.
  intros HN. unfold syntax_error. destruct (a =? 0).
  { unfold yy_parse_failed. destruct (h_fail h (ps_extra p)) as [x e]. hnf; exists [EvParseFail], 0. splits; [reflexivity|apply bites_same|reflexivity|exact I]. }
  cbn [unlimited t_err]. destruct (negb (t_err t =? 0)).
  - pose proof (recover_goes (S (height p)) st0 a m p) as HG. pose proof (recover_status (S (height p)) st0 a m p) as HS. unfold goes in HG.
    destruct (recover u h (S (height p)) st0 a m p) as [[] p1|e p1| |] eqn:E1; try exact I.
    + destruct HG as (l & c & HG & HB & HC).
      set (f := fun (_ : unit) (p1 : prs) => match ps_stack p1 with [] => yy_parse_failed h p1 | _ => ROk tt (log (set_count p1 3) (EvDrop a)) end).
      pose proof (bites_bind c 0 _ _ tt p1 f f HB eq_refl (bites_same _)) as HB2. rewrite Nat.max_0_r in HB2. change (rbind (ROk tt p1) f) with (f tt p1) in *. unfold f in HB2 at 2. unfold f at 2.
      assert (OP : forall e, opens [e] -> opens (l ++ [e])).
      { intros e He. destruct l as [|[] l]; cbn; auto. pose proof (HC []) as H0. clear - HG E1. exfalso.
        (* the first event of a recovery is not an acceptance *)
        cbn [recover] in E1. destruct (ps_stack p) as [|top rest] eqn:Es.
        - injection E1 as <-. unfold grown in HG. apply (f_equal (@List.length event)) in HG. rewrite app_length, rev_length in HG. cbn in HG. lia.
        - destruct (e_major top =? t_err u); [injection E1 as <-; unfold grown in HG; apply (f_equal (@List.length event)) in HG; rewrite app_length, rev_length in HG; cbn in HG; lia|].
          destruct (find_reduce_action u (e_state top) (t_err u)) as [q| |]; try discriminate. destruct (q <? t_nstate u).
          + destruct (h_syntax _ _ _ _ _) as [x [v|e']]; [|discriminate]. match type of E1 with context [yy_shift u h ?q1 ?q2 ?q3 ?q4] => destruct (shift_bites q1 q2 q3 q4) as [_ E2] end. rewrite E2 in E1. cbn in E1. injection E1 as <-.
            unfold grown in HG. cbn in HG. rewrite <- app_assoc in HG. cbn [app] in HG. change (EvError :: EvSyntaxError a :: ps_log p) with ([EvError; EvSyntaxError a] ++ ps_log p) in HG.
            change (rev l ++ EvAccept :: ps_log p) with (rev l ++ [EvAccept] ++ ps_log p) in HG. rewrite app_assoc in HG. apply app_inv_tail in HG. apply (f_equal (@rev event)) in HG. rewrite rev_app_distr in HG. discriminate.
          + pose proof (recover_goes (height p) st0 a m (log (set_stack p rest) EvPop)) as H1. unfold goes in H1. rewrite Es in H1. rewrite E1 in H1.
            destruct H1 as (l' & _ & HG' & _). unfold grown in HG, HG'. rewrite HG in HG'. cbn in HG'. rewrite <- app_assoc in HG'. cbn [app] in HG'.
            change (rev l ++ EvAccept :: ps_log p) with (rev l ++ [EvAccept] ++ ps_log p) in HG'. change (rev l' ++ EvPop :: ps_log p) with (rev l' ++ [EvPop] ++ ps_log p) in HG'. rewrite !app_assoc in HG'.
            apply app_inv_tail in HG'. apply app_inj_tail in HG' as [_ HG']. discriminate. }
      destruct (ps_stack p1) as [|e1 s1] eqn:Es.
      * unfold yy_parse_failed in HB2 |- *. destruct (h_fail h (ps_extra p1)) as [x e] eqn:Ef. cbn [goes2]. exists (l ++ [EvParseFail]), c. splits; auto.
        -- eapply grown_trans; [exact HG|reflexivity].
        -- unfold f, yy_parse_failed in HB2. rewrite HC. cbn. lia.
        -- apply OP. exact I.
      * cbn [goes2]. exists (l ++ [EvDrop a]), c. splits; auto.
        -- eapply grown_trans; [exact HG|reflexivity].
        -- apply OP. exact I.
        -- intros _ le. rewrite <- app_assoc, HC. cbn [app DepthFacts.climb]. cbn [log set_count ps_stack]. now rewrite Es.
        -- intros H. exfalso. apply H. cbn. congruence.
    + destruct HG as (l & c & HG & HB & HC & HO). cbn [rbind goes2]. exists l, c. splits; auto. exact (bites_err c _ _ e p1 _ (fun _ q => ROk tt q) HB eq_refl).
  - rewrite expected_unl. destruct (ps_count p =? 0).
    + destruct (h_syntax _ _ _ _ _) as [x [v|e]].
      * hnf; exists [EvSyntaxError a; EvDrop a], 0. splits; [reflexivity|apply bites_same|exact I|reflexivity|]. intros H. destruct H. exact HN.
      * hnf; exists [EvSyntaxError a], 0. splits; [reflexivity|apply bites_same|reflexivity|exact I].
    + hnf; exists [EvDrop a], 0. splits; [reflexivity|apply bites_same|exact I|reflexivity|]. intros H. destruct H. exact HN.
Qed.

Lemma pop_height n : forall (s : list (entry M)) acc vals rest, pop_n n s acc = Some (vals, rest) -> List.length rest = List.length s - n /\ n <= List.length s.
Proof.
  induction n as [|n IH]; intros s acc vals rest H; cbn [pop_n] in H; [injection H as _ <-; lia|]. destruct s as [|e s]; [discriminate|]. apply IH in H. cbn. lia.
Qed.

Lemma token_2_goes n : forall p a m, ps_status p = Normal -> goes2 p (parse_token_2 n t h p a m) (parse_token_2 n u h p a m).
Proof.
  induction n as [|n IH]; intros p a m HN; cbn [parse_token_2]; [exact I|]. rewrite HN. destruct (ps_stack p) as [|top rest] eqn:Es; [exact I|].
  rewrite find_shift_unl. destruct (find_shift_action t (e_state top) a) as [q| |]; try exact I. cbn [unlimited t_nstate t_nrule].
  destruct (q <? t_nstate t).
  { destruct (a =? 0); [exact I|]. destruct (shift_bites p q a m) as [HB HE].
    pose proof (bites_bind _ 0 _ _ tt _ (fun _ p1 => ROk tt (log (set_count p1 (ps_count p1 - 1)) (EvShift a))) (fun _ p1 => ROk tt (log (set_count p1 (ps_count p1 - 1)) (EvShift a))) HB HE (bites_same _)) as HB2.
    rewrite HE in *. cbn [rbind] in *. rewrite Nat.max_0_r in HB2. hnf; exists [EvShift a], (S (height p)). splits; [reflexivity|exact HB2|exact I|reflexivity|]. intros H. destruct H. exact HN. }
  destruct (q <? t_nstate t + t_nrule t); [|destruct (q =? t_nstate t + t_nrule t); [now apply error_goes|exact I]].
  set (r := q - t_nstate t). unfold yy_reduce. cbn [unlimited t_rules]. destruct (nth_error (t_rules t) r) as [rr|] eqn:Er; [|exact I].
  assert (Hlen : len r = List.length (rr_rhs rr)) by (cbv beta; now rewrite (nth_error_nth _ _ _ Er)).
  destruct (pop_n (List.length (rr_rhs rr)) (ps_stack p) []) as [[vals rst]|] eqn:Ep; [|exact I].
  destruct (pop_height _ _ _ _ _ Ep) as [Hr Hle]. destruct (h_reduce h r vals (ps_extra p)) as [[x [v|e]]|]; [| |exact I].
  2:{ cbn [rbind goes2]. hnf; exists [EvReduce r], 0. splits; [reflexivity|apply bites_same|reflexivity|exact I]. }
  destruct rst as [|tp rst]; [exact I|]. rewrite find_reduce_unl. destruct (find_reduce_action t (e_state tp) (rr_lhs rr)) as [k| |]; try exact I. cbn [unlimited t_nstate t_nrule].
  set (p1 := log (set_extra (set_stack p (tp :: rst)) x) (EvReduce r)). destruct (k <? t_nstate t).
  - destruct (shift_bites p1 k (rr_lhs rr) v) as [HB HE]. set (p2 := set_stack p1 (mkEntry k (rr_lhs rr) v :: ps_stack p1)) in *.
    assert (HN2 : ps_status p2 = Normal) by exact HN. specialize (IH p2 a m HN2).
    assert (H2 : height p2 = S (height p - len r)) by (rewrite Hlen; cbn; cbn in Hr; lia).
    assert (H1 : S (height p1) = S (height p - len r)) by exact H2.
    assert (OC : forall l, opens l -> climb (height p) (EvReduce r :: l) = max (S (height p - len r)) (climb (height p2) l)).
    { intros l Hl. rewrite H2. destruct l as [|[] l]; try (now destruct Hl); reflexivity. }
    unfold goes2 in IH |- *. rewrite HE. cbn [rbind].
    assert (BB : forall c, bites c (parse_token_2 n t h p2 a m) (parse_token_2 n u h p2 a m) ->
      bites (max (S (height p1)) c) (rbind (yy_shift t h p1 k (rr_lhs rr) v) (fun _ p1 => parse_token_2 n t h p1 a m)) (parse_token_2 n u h p2 a m)).
    { intros c Hc. exact (bites_bind _ c _ _ tt p2 (fun _ p1 => parse_token_2 n t h p1 a m) (fun _ p1 => parse_token_2 n u h p1 a m) HB HE Hc). }
    destruct (parse_token_2 n u h p2 a m) as [[] p3|e p3| |]; try exact I.
    + destruct IH as (l & c & HG & Hc & HO & C1 & C2). exists (EvReduce r :: l), (max (S (height p1)) c). splits; auto.
      * apply (grown_step p p2); [reflexivity|exact HG].
      * exact I.
      * intros H le. change ((EvReduce r :: l) ++ le) with (EvReduce r :: (l ++ le)). rewrite OC, (C1 H le), H1; [lia|]. clear - HO. destruct l as [|[] l]; cbn in HO |- *; try exact I; destruct HO.
      * intros H. rewrite OC, (C2 H), H1 by auto. reflexivity.
    + destruct IH as (l & c & HG & Hc & HC & HO). exists (EvReduce r :: l), (max (S (height p1)) c). splits; auto.
      * apply (grown_step p p2); [reflexivity|exact HG].
      * rewrite OC, HC, H1 by auto. reflexivity.
      * exact I.
  - destruct (k =? t_nstate t + t_nrule t + 1); [|exact I]. destruct (h_accept h v) as [root|]; [|exact I]. cbn [rbind].
    destruct n as [|n]; [exact I|]. cbn [parse_token_2 log set_status ps_status goes2]. hnf; exists [EvReduce r; EvAccept], 0. splits; [reflexivity|apply bites_same|exact I|discriminate|reflexivity].
Qed.

Lemma token_goes n p a m : goes2 p (parse_token n t h p a m) (parse_token n u h p a m).
Proof.
  unfold parse_token. destruct (ps_status p) eqn:HN; try exact I. pose proof (token_2_goes n p a m HN) as H. unfold goes2 in H |- *.
  destruct (parse_token_2 n u h p a m) as [[] p1|e p1| |]; auto.
  - destruct H as (l & c & HG & [B1 B2] & H). exists l, c. splits; auto; try apply H. split; intros Hc; [now rewrite B1|]. destruct (B2 Hc) as (e & p' & a' & m' & l' & x & -> & Ho). exists e, (set_status p' Failed), a', m', l', x. auto.
  - destruct H as (l & c & HG & [B1 B2] & H). exists l, c. splits; auto; try apply H. split; intros Hc; [now rewrite B1|]. destruct (B2 Hc) as (e' & p' & a' & m' & l' & x & -> & Ho). exists e', (set_status p' Failed), a', m', l', x. auto.
Qed.

(** Whole runs: what happened without a limit says whether the limit is met. *)
Definition goes3 (p : prs) {A} (r r0 : res M X E R A) : Prop :=
  match r0 with
  | ROk _ p1 => exists l c, grown p p1 l /\ bites c r r0 /\
      (ps_status p1 = Normal -> forall le, climb (height p) (l ++ le) = max c (climb (height p1) le)) /\ (ps_status p1 <> Normal -> climb (height p) l = c)
  | RErr _ p1 => exists l c, grown p p1 l /\ bites c r r0 /\ climb (height p) l = c
  | _ => True
  end.
Lemma parse_all_goes n ts : forall p, ps_status p = Normal -> goes3 p (parse_all n t h p ts) (parse_all n u h p ts).
Proof.
  induction ts as [|[a m] ts IH]; intros p HN; cbn [parse_all].
  - hnf; exists [], 0. splits; [apply grown_nil|apply bites_same|reflexivity|]. intros H. now destruct H.
  - pose proof (token_goes n p a m) as H. unfold goes2 in H. destruct (parse_token n u h p a m) as [[] p1|e p1| |] eqn:E1; try exact I.
    + destruct H as (l & c & HG & HB & HO & C1 & C2). destruct (ps_status p1) eqn:S1.
      * specialize (IH p1 S1). unfold goes3 in IH |- *. specialize (C1 eq_refl).
        pose proof (fun d => bites_bind c d _ _ tt p1 (fun _ q => parse_all n t h q ts) (fun _ q => parse_all n u h q ts) HB eq_refl) as BB.
        change (rbind (ROk tt p1) (fun _ q => parse_all n u h q ts)) with (parse_all n u h p1 ts) in *.
        destruct (parse_all n u h p1 ts) as [[] p2|e p2| |]; try exact I.
        -- destruct IH as (l' & d & HG' & HB' & D1 & D2). exists (l ++ l'), (max c d). splits; [eapply grown_trans; eauto|apply BB; exact HB'| |].
           ++ intros H le. rewrite <- app_assoc, C1, (D1 H). lia.
           ++ intros H. rewrite C1, (D2 H). reflexivity.
        -- destruct IH as (l' & d & HG' & HB' & D). exists (l ++ l'), (max c d). splits; [eapply grown_trans; eauto|apply BB; exact HB'|rewrite C1, D; reflexivity].
      * destruct ts as [|[a' m'] ts]; cbn [rbind parse_all].
        -- cbn [goes3]. exists l, (max c 0). splits; auto; [exact (bites_bind c 0 _ _ tt p1 (fun _ q => ROk tt q) (fun _ q => ROk tt q) HB eq_refl (bites_same _))|rewrite S1; discriminate|]. intros _. rewrite C2 by discriminate. lia.
        -- replace (parse_token n u h p1 a' m') with (@RPanic M X E R unit) by (unfold parse_token; now rewrite S1). exact I.
      * destruct ts as [|[a' m'] ts]; cbn [rbind parse_all].
        -- cbn [goes3]. exists l, (max c 0). splits; auto; [exact (bites_bind c 0 _ _ tt p1 (fun _ q => ROk tt q) (fun _ q => ROk tt q) HB eq_refl (bites_same _))|rewrite S1; discriminate|]. intros _. rewrite C2 by discriminate. lia.
        -- replace (parse_token n u h p1 a' m') with (@RPanic M X E R unit) by (unfold parse_token; now rewrite S1). exact I.
    + destruct H as (l & c & HG & HB & HC & HO). cbn [rbind goes3]. exists l, c. splits; auto. exact (bites_err c _ _ e p1 _ (fun _ q => parse_all n u h q ts) HB eq_refl).
Qed.

Theorem run_bites n x ts : match run n u h x ts with
  | ROk _ pp | RErr _ pp => bites (climb 1 (rev (ps_log pp))) (run n t h x ts) (run n u h x ts)
  | _ => True
  end.
Proof.
  unfold run. pose proof (parse_all_goes n ts (new_parser h x) eq_refl) as H. unfold goes3 in H. cbn [new_parser ps_stack List.length] in H.
  destruct (parse_all n u h (new_parser h x) ts) as [[] p1|e p1| |]; try exact I.
  - destruct H as (l & c & HG & HB & C1 & C2). cbn [rbind].
    pose proof (token_goes n p1 0 (h_unit h)) as H. unfold goes2 in H. destruct (ps_status p1) eqn:S1; [|unfold end_of_input, parse_token; now rewrite S1|unfold end_of_input, parse_token; now rewrite S1]. specialize (C1 eq_refl).
    set (f := fun (_ : unit) (q : prs) => match ps_status q with Accepted r => ROk (r, ps_extra q) q | _ => RPanic end : res M X E R (R * X)).
    change (end_of_input n t h) with (fun q => rbind (parse_token n t h q 0 (h_unit h)) f). change (end_of_input n u h p1) with (rbind (parse_token n u h p1 0 (h_unit h)) f).
    destruct (parse_token n u h p1 0 (h_unit h)) as [[] p2|e p2| |] eqn:E1; try exact I.
    + destruct H as (l' & d & HG' & HB' & _ & D1 & D2). cbn [rbind]. unfold f at 1 3. destruct (ps_status p2) as [| |root] eqn:S2; try exact I.
      assert (EL : rev (ps_log p2) = l ++ l').
      { pose proof (grown_trans _ _ _ _ _ HG HG') as G. unfold grown in G. cbn [new_parser ps_log] in G. now rewrite G, app_nil_r, rev_involutive. }
      rewrite EL, C1, (D2 ltac:(discriminate)).
      refine (bites_bind c d _ _ tt p1 (fun _ q => rbind (parse_token n t h q 0 (h_unit h)) f) (fun _ q => ROk (root, ps_extra p2) p2) HB eq_refl _).
      rewrite <- (Nat.max_0_r d). refine (bites_bind d 0 _ _ tt p2 f (fun _ q => ROk (root, ps_extra p2) p2) HB' eq_refl _). unfold f. rewrite S2. apply bites_same.
    + destruct H as (l' & d & HG' & HB' & D & _). cbn [rbind].
      assert (EL : rev (ps_log p2) = l ++ l').
      { pose proof (grown_trans _ _ _ _ _ HG HG') as G. unfold grown in G. cbn [new_parser ps_log] in G. now rewrite G, app_nil_r, rev_involutive. }
      rewrite EL, C1, D.
      refine (bites_bind c d _ _ tt p1 (fun _ q => rbind (parse_token n t h q 0 (h_unit h)) f) (fun _ q => RErr e p2) HB eq_refl _).
      exact (bites_err d _ _ e p2 f (fun _ q => RErr e p2) HB' eq_refl).
  - destruct H as (l & c & HG & HB & HC). cbn [rbind].
    assert (EL : rev (ps_log p1) = l). { unfold grown in HG. cbn [new_parser ps_log] in HG. now rewrite HG, app_nil_r, rev_involutive. }
    rewrite EL, HC. exact (bites_err c _ _ e p1 _ (fun _ q => RErr e p1) HB eq_refl).
Qed.
End Bites.
