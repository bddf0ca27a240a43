(** [compress_tables]: what default reductions do to the action list of a state. *)
From Coq Require Import Sorted.
From Verif Require Import Base Syntax BaseFacts FrontEnd First States Actions Spec WfGrammar
  ActFacts.

(** Actions that are written to the tables. *)
Definition emits (d : detail) : bool :=
  match d with Shift _ | Reduce _ | Error | Accept => true | _ => false end.

(** The action the packed table holds for a lookahead: the last one written. *)
Fixpoint eff (l : list action) (la : nat) : option detail :=
  match l with
  | [] => None
  | a :: l' => match eff l' la with
               | Some d => Some d
               | None => if (a_la a =? la) && emits (a_det a) then Some (a_det a) else None
               end
  end.

Lemma live_emits d : live d -> emits d = true.
Proof. destruct d; simpl; auto; contradiction. Qed.
Lemma emits_cases d : emits d = true -> live d \/ d = Error.
Proof. destruct d; simpl; auto; discriminate. Qed.

Lemma eff_in l la d : eff l la = Some d -> In (mkAct la d) l /\ emits d = true.
Proof.
  induction l as [|[la' d'] l IH]; simpl; [discriminate|]. destruct (eff l la) as [d0|].
  - intros H. destruct (IH H). auto.
  - destruct (Nat.eqb_spec la' la) as [->|]; [|discriminate]. destruct (emits d') eqn:E; [|discriminate].
    intros H. inversion H; subst. auto.
Qed.

Lemma eff_none l la : eff l la = None <-> forall d, In (mkAct la d) l -> emits d = false.
Proof.
  split.
  - induction l as [|[la' d'] l IH]; simpl; [intros _ d []|]. destruct (eff l la) as [d0|]; [discriminate|].
    intros H d [E|Hin]; [|auto]. inversion E; subst. rewrite Nat.eqb_refl in H. destruct (emits d); [discriminate|auto].
  - intros H. destruct (eff l la) as [d|] eqn:E; auto. apply eff_in in E as [E1 E2]. rewrite (H _ E1) in E2. discriminate.
Qed.

Lemma eff_unique l la d : In (mkAct la d) l -> emits d = true ->
  (forall d', In (mkAct la d') l -> emits d' = true -> d' = d) -> eff l la = Some d.
Proof.
  intros H1 H2 H3. destruct (eff l la) as [d'|] eqn:E.
  - apply eff_in in E as [E1 E2]. f_equal. auto.
  - rewrite eff_none in E. rewrite (E _ H1) in H2. discriminate.
Qed.

Lemma eff_last l la d : sorted_by action_less l -> In (mkAct la Error) l -> In (mkAct la d) l -> 
  eff l la = Some Error.
Proof.
  intros Hs He _. unfold sorted_by in Hs. induction Hs as [|[la' d'] l H IH HF]; [contradiction|]. simpl.
  destruct He as [E|He]; [|now rewrite IH].
  inversion E; subst. rewrite Nat.eqb_refl. simpl.
  destruct (eff l la) as [d0|] eqn:E0; auto. apply eff_in in E0 as [E1 E2].
  rewrite Forall_forall in HF. specialize (HF _ E1). simpl in HF. apply action_less_false in HF. simpl in HF.
  destruct HF as [HF|[_ HF]]; [lia|]. apply key_less_false in HF. simpl in HF. destruct d0; simpl in *; try lia; try discriminate. auto.
Qed.

(** ** The fallback test *)
Definition first_at (l : list action) (la : nat) : option action := find (fun a => a_la a =? la) l.

Section Comp.
Context (g : grammar) (W : wf_grammar g).

Lemma falls_head a b : falls_to g a b -> b = a \/ exists s c, nth_error (g_syms g) a = Some s /\ sy_fb s = Some c /\ falls_to g c b.
Proof.
  induction 1 as [|b s c H IH Hs Hf]; auto. right. destruct IH as [->|(s' & c' & H1 & H2 & H3)].
  - exists s, c. splits; auto. constructor.
  - exists s', c'. splits; auto. econstructor; eauto.
Qed.

Lemma gsym_fb a c : sy_fb (gsym g a) = Some c -> nth_error (g_syms g) a = Some (gsym g a).
Proof.
  unfold gsym. intros H. destruct (nth_error (g_syms g) a) as [s|] eqn:E.
  - now rewrite (nth_error_nth _ _ _ E).
  - rewrite nth_overflow in H; [discriminate|]. now apply nth_error_None.
Qed.

Lemma gsym_nth a s : nth_error (g_syms g) a = Some s -> gsym g a = s.
Proof. intros H. unfold gsym. eapply nth_error_nth; eauto. Qed.

Lemma fallback_differs_false acts d : forall fuel la, fallback_differs fuel g acts d la = GOk false ->
  forall b, falls_to g la b -> b = la \/ match first_at acts b with Some a => detail_equal d (a_det a) = true | None => True end.
Proof.
  induction fuel as [|n IH]; intros la H b Hb; [discriminate|]. cbn [fallback_differs] in H.
  apply falls_head in Hb as [->|(s & c & Hs & Hc & Hb)]; auto. right.
  rewrite (gsym_nth _ _ Hs), Hc in H. fold (first_at acts c) in H.
  destruct (first_at acts c) as [a2|] eqn:E.
  - destruct (detail_equal d (a_det a2)) eqn:Ed; [|discriminate].
    destruct (IH _ H b Hb) as [->|?]; auto. now rewrite E.
  - destruct (IH _ H b Hb) as [->|?]; auto. now rewrite E.
Qed.

Lemma ignored_spec fuel acts ign : ignored_actions fuel g acts = GOk ign ->
  forall a, In a acts -> ~ In (a_la a) ign ->
  forall b, falls_to g (a_la a) b -> b = a_la a \/
    match first_at acts b with Some a2 => detail_equal (a_det a) (a_det a2) = true | None => True end.
Proof.
  unfold ignored_actions. intros H a Ha Hn. destruct (f_has_fb (g_fe g)) eqn:Ef.
  2:{ intros b Hb. left. apply falls_head in Hb as [->|(s & c & Hs & Hc & _)]; auto.
      destruct (wg_fb g W _ _ _ Hs Hc) as (_ & _ & _ & _ & Hf). congruence. }
  set (step := fun ign a => b <-! fallback_differs fuel g acts (a_det a) (a_la a) ; GOk (if b : bool then sadd (a_la a) ign else ign)) in *.
  assert (HG : forall l i0 i1, gfold step l i0 = GOk i1 -> incl i0 i1 /\
      forall a, In a l -> ~ In (a_la a) i1 -> fallback_differs fuel g acts (a_det a) (a_la a) = GOk false).
  { induction l as [|x l IH]; intros i0 i1 Hg; cbn [gfold] in Hg.
    - inversion Hg; subst. split; [apply incl_refl|contradiction].
    - apply gbind_ok in Hg as (i2 & H1 & H2). apply IH in H2 as [I1 I2]. unfold step in H1.
      apply gbind_ok in H1 as (b & H3 & H4). inversion H4; subst i2. split.
      + intros y Hy. apply I1. destruct b; auto. apply sadd_in. auto.
      + intros y [<-|Hy] Hny; [|auto]. destruct b; auto. exfalso. apply Hny. apply I1. apply sadd_in. auto. }
  apply HG in H as [_ H]. eapply fallback_differs_false. eauto.
Qed.

(** Following no fallback, a lookahead is not ignored. *)
Lemma ignored_no_fb fuel acts ign la : ignored_actions fuel g acts = GOk ign -> sy_fb (gsym g la) = None -> ~ In la ign.
Proof.
  unfold ignored_actions. intros H Hf. destruct (f_has_fb (g_fe g)); [|inversion H; subst; auto].
  set (step := fun ign a => b <-! fallback_differs fuel g acts (a_det a) (a_la a) ; GOk (if b : bool then sadd (a_la a) ign else ign)) in *.
  assert (HG : forall l i0 i1, gfold step l i0 = GOk i1 -> ~ In la i0 -> ~ In la i1).
  { induction l as [|x l IH]; intros i0 i1 Hg Hn; cbn [gfold] in Hg.
    - inversion Hg; subst; auto.
    - apply gbind_ok in Hg as (i2 & H1 & H2). apply (IH _ _ H2). unfold step in H1.
      apply gbind_ok in H1 as (b & H3 & H4). inversion H4; subst i2. destruct b; auto.
      intros Hin. apply sadd_in in Hin as [->|?]; auto.
      destruct fuel; [discriminate|]. cbn [fallback_differs] in H3. rewrite Hf in H3. discriminate. }
  eapply HG; eauto.
Qed.

(** ** Choosing the default *)
Lemma count_reduce_pos ign rb r l : 1 <= count_reduce ign rb r l.
Proof.
  unfold count_reduce. assert (H : forall n, n <= fold_left (fun n a => if smem (a_la a) ign then n
    else match a_det a with Reduce rp2 => if is_rbest rb rp2 then n else if rp2 =? r then S n else n | _ => n end) l n).
  { induction l as [|a l IH]; intros n; simpl; auto. etransitivity; [|apply IH].
    destruct (smem _ _); auto. destruct (a_det a); auto. destruct (is_rbest _ _); auto. destruct (_ =? _); auto. }
  apply H.
Qed.

Lemma find_best_some ign : forall l b r, b_rule (find_best g ign l b) = Some r ->
  b_rule b = Some r \/ (lhs_start g r = false /\ exists a, In a l /\ ~ In (a_la a) ign /\ a_det a = Reduce r).
Proof.
  induction l as [|a l IH]; intros b r H; cbn [find_best] in H; auto.
  assert (HL : forall b', b_rule b' = b_rule b -> b_rule (find_best g ign l b') = Some r ->
    b_rule b = Some r \/ (lhs_start g r = false /\ exists a0, In a0 (a :: l) /\ ~ In (a_la a0) ign /\ a_det a0 = Reduce r)).
  { intros b' E H'. apply IH in H' as [H'|(H1 & a0 & H2 & H3)]; [left; congruence|]. right. split; auto. exists a0. split; [now right|auto]. }
  destruct (smem (a_la a) ign) eqn:Es; [eauto|]. apply smem_false in Es.
  destruct (a_det a) as [s| |rp| | | | | | |] eqn:Ed; try (now apply (HL b) in H); try (destruct (g_wild g) as [w|]; apply (HL b) in H; auto; fail).
  - destruct (g_wild g) as [w|]; [|apply (HL b) in H; auto]. destruct (a_la a =? w); eapply HL; [|exact H| |exact H]; reflexivity.
  - assert (H' : (if lhs_start g rp then find_best g ign l b else if is_rbest (b_rule b) rp then find_best g ign l b
       else find_best g ign l (if b_n b <? count_reduce ign (b_rule b) rp l then mkBest (count_reduce ign (b_rule b) rp l) (Some rp) (b_wild b) else b))
       = find_best g ign (a :: l) b).
    { cbn [find_best]. rewrite (proj2 (smem_false _ _) Es), Ed. destruct (g_wild g); reflexivity. }
    assert (H2 : b_rule (find_best g ign (a :: l) b) = Some r).
    { cbn [find_best]. rewrite (proj2 (smem_false _ _) Es), Ed. exact H. }
    rewrite <- H' in H2. clear H H'. destruct (lhs_start g rp) eqn:El; [eauto|]. destruct (is_rbest _ _); [eauto|].
    destruct (_ <? _); [|eauto]. apply IH in H2 as [H2|(H1 & a0 & H3 & H4)].
    + simpl in H2. inversion H2; subst. right. split; auto. exists a. split; [now left|auto].
    + right. split; auto. exists a0. split; [now right|auto].
Qed.

Lemma find_best_keeps ign : forall l b, b_rule b <> None -> b_rule (find_best g ign l b) <> None.
Proof.
  induction l as [|a l IH]; intros b H; cbn [find_best]; auto.
  destruct (smem _ _); auto. destruct (a_det a), (g_wild g); auto.
  - destruct (_ =? _); auto.
  - destruct (lhs_start _ _); auto. destruct (is_rbest _ _); auto. destruct (_ <? _); auto. apply IH. discriminate.
  - destruct (lhs_start _ _); auto. destruct (is_rbest _ _); auto. destruct (_ <? _); auto. apply IH. discriminate.
Qed.

Lemma find_best_none ign : forall l b, b_n b = 0 -> b_rule (find_best g ign l b) = None ->
  forall a r, In a l -> ~ In (a_la a) ign -> a_det a = Reduce r -> lhs_start g r = true.
Proof.
  induction l as [|x l IH]; intros b Hb H a r Ha Hn Hd; [contradiction|]. cbn [find_best] in H.
  destruct Ha as [->|Ha].
  - rewrite (proj2 (smem_false _ _) Hn), Hd in H.
    destruct (lhs_start g r) eqn:El; auto. exfalso.
    assert (H' : b_rule (if is_rbest (b_rule b) r then find_best g ign l b
       else find_best g ign l (if b_n b <? count_reduce ign (b_rule b) r l then mkBest (count_reduce ign (b_rule b) r l) (Some r) (b_wild b) else b)) = None)
      by (destruct (g_wild g); exact H).
    destruct (is_rbest (b_rule b) r) eqn:Er.
    + apply find_best_keeps in H'; auto. unfold is_rbest in Er. destruct (b_rule b); congruence.
    + pose proof (count_reduce_pos ign (b_rule b) r l). rewrite Hb, (proj2 (Nat.ltb_lt _ _)) in H' by lia.
      apply find_best_keeps in H'; auto. discriminate.
  - assert (HL : forall b', b_n b' = 0 -> b_rule (find_best g ign l b') = None -> lhs_start g r = true).
    { intros b' E H'. eapply IH; eauto. }
    destruct (smem _ _) eqn:Es; [now apply (HL b)|]. destruct (a_det x) as [s| |rp| | | | | | |]; destruct (g_wild g) as [w|]; try (now apply (HL b)).
    + destruct (a_la x =? w); eapply HL; [|exact H| |exact H]; auto.
    + destruct (lhs_start _ _); [now apply (HL b)|]. destruct (is_rbest _ _); [now apply (HL b)|].
      destruct (b_n b <? _); [|now apply (HL b)]. exfalso. apply find_best_keeps in H; auto. discriminate.
    + destruct (lhs_start _ _); [now apply (HL b)|]. destruct (is_rbest _ _); [now apply (HL b)|].
      destruct (b_n b <? _); [|now apply (HL b)]. exfalso. apply find_best_keeps in H; auto. discriminate.
Qed.

Lemma find_best_wild ign : forall l b, b_wild (find_best g ign l b) = true -> b_wild b = true \/
  exists w t, g_wild g = Some w /\ In (mkAct w (Shift t)) l.
Proof.
  induction l as [|[la d] l IH]; intros b H; cbn [find_best] in H; auto.
  assert (HL : forall b', b_wild b' = b_wild b -> b_wild (find_best g ign l b') = true ->
    b_wild b = true \/ exists w t, g_wild g = Some w /\ In (mkAct w (Shift t)) (mkAct la d :: l)).
  { intros b' E H'. apply IH in H' as [H'|(w & t & ? & ?)]; [left; congruence|right; exists w, t; split; auto; now right]. }
  cbn [a_la a_det] in H. destruct (smem _ _); [now apply (HL b)|].
  destruct d; destruct (g_wild g) as [w|] eqn:Ew; try (now apply (HL b)).
  - destruct (Nat.eqb_spec la w) as [->|]; [|now apply (HL b)]. right. exists w, s. split; auto. now left.
  - destruct (lhs_start _ _); [now apply (HL b)|]. destruct (is_rbest _ _); [now apply (HL b)|].
    eapply HL; [|exact H]. destruct (_ <? _); reflexivity.
  - destruct (lhs_start _ _); [now apply (HL b)|]. destruct (is_rbest _ _); [now apply (HL b)|].
    eapply HL; [|exact H]. destruct (_ <? _); reflexivity.
Qed.

Lemma find_best_wild_keeps ign : forall l b, b_wild b = true -> b_wild (find_best g ign l b) = true.
Proof.
  induction l as [|[la d] l IH]; intros b H; cbn [find_best]; auto. cbn [a_la a_det]. destruct (smem _ _); auto.
  destruct d; destruct (g_wild g) as [w|]; auto; try (destruct (lhs_start _ _); auto; destruct (is_rbest _ _); auto; apply IH; destruct (_ <? _); auto).
  destruct (_ =? _); auto.
Qed.
Lemma find_best_sees ign w q : g_wild g = Some w -> ~ In w ign -> forall l b, In (mkAct w (Shift q)) l -> b_wild (find_best g ign l b) = true.
Proof.
  intros Hw Hi. induction l as [|[la d] l IH]; intros b []; cbn [find_best a_la a_det]; rewrite ?Hw.
  - injection H as -> ->. assert (E : smem w ign = false) by now apply smem_false. rewrite E, Nat.eqb_refl. now apply find_best_wild_keeps.
  - destruct (smem _ _); auto. destruct d; auto. destruct (lhs_start _ _); auto. destruct (is_rbest _ _); auto.
Qed.

(** ** Rewriting the list *)
Definition moved (ign : list nat) (r : nat) (la : nat) (d : detail) : Prop := d = Reduce r /\ ~ In la ign.

Lemma make_default_in ign r la d : emits d = true -> forall l,
  In (mkAct la d) (make_default g ign r l) <->
  (In (mkAct la d) l /\ ~ moved ign r la d) \/
  (la = g_dflt g /\ d = Reduce r /\ exists la0, In (mkAct la0 (Reduce r)) l /\ ~ In la0 ign).
Proof.
  intros He. induction l as [|[la1 d1] l IH]; cbn [make_default].
  { simpl. split; [tauto|]. intros [[[] _]|(_ & _ & la0 & [] & _)]. }
  cbn [a_la a_det].
  destruct (negb (smem la1 ign) && is_reduce r (mkAct la1 d1)) eqn:Eb.
  - apply andb_true_iff in Eb as [E1 E2]. apply negb_true_iff, smem_false in E1.
    unfold is_reduce in E2. simpl in E2. destruct d1; try discriminate. apply Nat.eqb_eq in E2. subst r0.
    simpl. rewrite in_map_iff. split.
    + intros [E|([la2 d2] & E & Hin)].
      * inversion E; subst. right. splits; auto. exists la1. auto.
      * unfold unuse in E. cbn [a_la a_det] in E. destruct (smem la2 ign) eqn:Es.
        -- inversion E; subst. left. split; auto. intros [_ Hn]. apply smem_true in Es. contradiction.
        -- destruct (is_reduce r (mkAct la2 d2)) eqn:Er.
           ++ inversion E; subst. discriminate.
           ++ inversion E; subst. left. split; auto. intros [-> _]. unfold is_reduce in Er. simpl in Er. rewrite Nat.eqb_refl in Er. discriminate.
    + intros [[[E|Hin] Hm]|(-> & -> & _)]; [| |auto].
      * inversion E; subst. exfalso. apply Hm. split; auto.
      * right. exists (mkAct la d). split; auto. unfold unuse. cbn [a_la a_det]. destruct (smem la ign) eqn:Es; auto.
        destruct (is_reduce r (mkAct la d)) eqn:Er; auto. exfalso. apply Hm. apply smem_false in Es. split; auto.
        unfold is_reduce in Er. simpl in Er. destruct d; try discriminate. apply Nat.eqb_eq in Er. now subst.
  - simpl. rewrite IH. split.
    + intros [E|[[Hin Hm]|(-> & -> & la0 & Hin & Hn)]].
      * left. split; auto. intros [-> Hn]. inversion E; subst. unfold is_reduce in Eb. simpl in Eb.
        rewrite Nat.eqb_refl, andb_true_r in Eb. apply negb_false_iff, smem_true in Eb. contradiction.
      * left. auto.
      * right. splits; auto. exists la0. auto.
    + intros [[[E|Hin] Hm]|(-> & -> & la0 & [E|Hin] & Hn)]; auto.
      * inversion E; subst. unfold is_reduce in Eb. simpl in Eb. rewrite Nat.eqb_refl, andb_true_r in Eb.
        apply negb_false_iff, smem_true in Eb. contradiction.
      * right. right. splits; auto. exists la0. auto.
Qed.

(** What is known of the action list of a state before compression. *)
Record grouped (l : list action) : Prop := {
  gr_sorted : la_sorted l;
  gr_live : forall la d d', In (mkAct la d) l -> In (mkAct la d') l -> live d -> live d' -> d = d';
  gr_first : forall la a r, first_at l la = Some a -> a_det a = Reduce r -> ~ In (mkAct la Error) l;
  gr_dflt : forall d, ~ In (mkAct (g_dflt g) d) l }.

(** What compression makes of [l]: the default rule, if any, and the new list. *)
Record compressed (l l' : list action) (dr : option nat) : Prop := {
  co_sorted : la_sorted l';
  co_mem : forall la d, emits d = true -> In (mkAct la d) l' -> la <> g_dflt g -> In (mkAct la d) l;
  co_dflt : forall d, emits d = true -> In (mkAct (g_dflt g) d) l' <-> exists r, dr = Some r /\ d = Reduce r;
  co_rule : forall r, dr = Some r -> lhs_start g r = false /\ exists la, In (mkAct la (Reduce r)) l;
  co_keep : forall la d, In (mkAct la d) l -> live d -> (forall r, dr = Some r -> d <> Reduce r) -> In (mkAct la d) l';
  co_moved : forall la r, dr = Some r -> In (mkAct la (Reduce r)) l ->
    In (mkAct la (Reduce r)) l' \/
    (forall b, falls_to g la b -> b = la \/ match first_at l b with Some a2 => a_det a2 = Reduce r | None => True end);
  co_error : forall la, In (mkAct la Error) l -> dr <> None -> eff l' la = Some Error;
  co_wild : forall w q, g_wild g = Some w -> sy_fb (gsym g w) = None -> In (mkAct w (Shift q)) l -> dr = None;
  co_none : dr = None -> l' = l /\
    ((exists w t, g_wild g = Some w /\ In (mkAct w (Shift t)) l) \/
     forall la r, In (mkAct la (Reduce r)) l -> sy_fb (gsym g la) = None -> lhs_start g r = true) }.

Lemma detail_equal_reduce r d : detail_equal (Reduce r) d = true -> d = Reduce r.
Proof. destruct d; simpl; try discriminate. intros H. apply Nat.eqb_eq in H. congruence. Qed.

Lemma compress_state_spec fuel st st' : grouped (s_actions st) -> compress_state fuel g st = GOk st' ->
  s_configs st' = s_configs st /\ exists dr, compressed (s_actions st) (s_actions st') dr.
Proof.
  intros [G1 G2 G3 G4] H. unfold compress_state in H.
  apply gbind_ok in H as (ign & Hi & H).
  set (b := find_best g ign (s_actions st) (mkBest 0 None false)) in *.
  destruct (b_rule b) as [r|] eqn:Er.
  2:{ inversion H; subst st'. split; auto. exists None. constructor; auto; try discriminate.
      - intros d _. split; [intros Hin; now apply G4 in Hin|intros (r & ? & _); discriminate].
      - congruence.
      - intros _. split; auto. right. intros la r Hin Hf.
        eapply (find_best_none ign (s_actions st) (mkBest 0 None false) eq_refl Er (mkAct la (Reduce r))); auto.
        simpl. eapply ignored_no_fb; eauto. }
  destruct (b_wild b) eqn:Ew.
  { inversion H; subst st'. split; auto. exists None. constructor; auto; try discriminate.
    - intros d _. split; [intros Hin; now apply G4 in Hin|intros (r' & ? & _); discriminate].
    - congruence.
    - intros _. split; auto. left. apply find_best_wild in Ew as [Ew|?]; [discriminate|auto]. }
  inversion H; subst st'. clear H. simpl. split; auto. exists (Some r).
  apply find_best_some in Er as [Er|(El & [la0 d0] & H1 & H2 & H3)]; [discriminate|]. simpl in H2, H3. subst d0.
  set (l := s_actions st) in *. set (l' := ssort action_less (make_default g ign r l)).
  assert (HI : forall la d, emits d = true -> In (mkAct la d) l' <-> (In (mkAct la d) l /\ ~ moved ign r la d) \/
      (la = g_dflt g /\ d = Reduce r)).
  { intros la d He. unfold l'. rewrite ssort_in, make_default_in by auto. split.
    - intros [?|(-> & -> & _)]; auto.
    - intros [?|(-> & ->)]; auto. right. splits; auto. exists la0. auto. }
  assert (Hsort : sorted_by action_less l') by apply ssort_actions_sorted.
  constructor.
  - now apply sorted_la_sorted.
  - intros la d He Hin Hla. apply HI in Hin as [[? _]|[? _]]; auto. contradiction.
  - intros d He. rewrite HI by auto. split.
    + intros [[Hin _]|[_ ->]]; [now apply G4 in Hin|]. eauto.
    + intros (r' & E & ->). inversion E; subst. auto.
  - intros r' E. inversion E; subst r'. eauto.
  - intros la d Hin Hl Hr. apply HI; [now apply live_emits|]. left. split; auto. intros [-> _]. apply (Hr r); auto.
  - intros la r' E Hin. inversion E; subst r'. destruct (in_dec Nat.eq_dec la ign) as [Hig|Hig].
    + left. apply HI; auto. left. split; auto. intros [_ Hn]. contradiction.
    + right. intros b0 Hb0. destruct (ignored_spec _ _ _ Hi (mkAct la (Reduce r)) Hin Hig b0 Hb0) as [?|Hf]; auto.
      right. fold l in Hf. destruct (first_at l b0); auto. now apply detail_equal_reduce in Hf.
  - intros la He _. apply (eff_last l' la Error); auto; apply HI; auto; left; split; auto; intros [? _]; discriminate.
  - intros w q Hw Hf Hin. exfalso. assert (Hni : ~ In w ign) by (eapply ignored_no_fb; eauto). pose proof (find_best_sees ign w q Hw Hni _ (mkBest 0 None false) Hin) as HB. unfold b in Ew. congruence.
  - discriminate.
Qed.

Lemma gmap_nth {A B} (f : A -> gres B) (d : A) (e : B) : forall l acc r,
  gfold (fun acc a => b <-! f a ; GOk (acc ++ [b])) l acc = GOk r ->
  List.length r = List.length acc + List.length l /\
  (forall i, i < List.length acc -> nth i r e = nth i acc e) /\
  forall i, i < List.length l -> f (nth i l d) = GOk (nth (List.length acc + i) r e).
Proof.
  induction l as [|a l IH]; intros acc r H; cbn [gfold] in H.
  - inversion H; subst. simpl. splits; auto; intros; lia.
  - apply gbind_ok in H as (acc1 & H1 & H2). apply gbind_ok in H1 as (b & H1 & H3). inversion H3; subst acc1.
    apply IH in H2 as (L1 & L2 & L3). rewrite app_length in *. simpl in *. splits; [lia| |].
    + intros i Hi. rewrite L2 by lia. now rewrite app_nth1.
    + intros [|i] Hi.
      * rewrite H1. f_equal. rewrite Nat.add_0_r, L2 by lia. rewrite app_nth2 by lia. now rewrite Nat.sub_diag.
      * rewrite L3 by lia. do 2 f_equal. lia.
Qed.

Lemma compress_tables_spec fuel p p' : compress_tables fuel g p = GOk p' ->
  p_cfgs p' = p_cfgs p /\ List.length (p_states p') = List.length (p_states p) /\
  forall s, s < List.length (p_states p) -> compress_state fuel g (pstate p s) = GOk (pstate p' s).
Proof.
  unfold compress_tables. intros H. apply gbind_ok in H as (sts & H1 & H2). inversion H2; subst p'. simpl.
  apply (gmap_nth (compress_state fuel g) dummy_state dummy_state) in H1 as (L1 & _ & L3). simpl in *. splits; auto.
Qed.
End Comp.
