(** Completeness: the generated parser accepts every sentence of a grammar with no
    precedence declarations and no wildcard, with the value of its tree, performing
    exactly the reductions of that tree in order (C02, C05, C29). *)
From Verif Require Import Base Syntax BaseFacts FrontEnd First States Actions Tables Runtime
  PackFacts Spec WfGrammar FirstFacts ClosureFacts AutoFacts LalrFacts ActFacts CompFacts GroupFacts
  TabFacts LookFacts PipeFacts RunFacts SoundFacts AbsFacts TermFacts.

(** What the parser does while it reads a tree: shifts and reductions, in order. *)
Section Events.
Context {M : Type}.
Fixpoint events (tr : tree M) : list event :=
  match tr with
  | TTok a _ => [EvShift a]
  | TNode r ts => flat_map events ts ++ [EvReduce r]
  end.

(** How many stack entries reading a tree needs, on top of those already there. *)
Fixpoint need (tr : tree M) : nat :=
  match tr with
  | TTok _ _ => 1
  | TNode _ ts => max 1 ((fix go ts := match ts with [] => 0 | t :: ts' => max (need t) (S (go ts')) end) ts)
  end.
Fixpoint needs (ts : list (tree M)) : nat :=
  match ts with [] => 0 | t :: ts' => max (need t) (S (needs ts')) end.
Lemma need_node r ts : need (TNode r ts) = max 1 (needs ts).
Proof. reflexivity. Qed.
End Events.

Section Complete.
Context (g : grammar) (p p3 p4 : pst) (t : tables) (P : Pipe g p p3 p4 t).
Context {M X E R : Type} (h : hooks M X E R).
Let W := pp_wf _ _ _ _ _ P.
Let A := pp_aut _ _ _ _ _ P.
Notation ns := (List.length (p_states p)).
Notation nr := (List.length (g_rules g)).
Notation num := (state_num g p4).
Notation spine := (spine g p p4 (M := M)).
Notation prs := (parser M X R).
Notation conf := (prs * list (nat * M))%type.
Notation tcode := (code ns nr num).

(** Every candidate action on a token is what the table answers. *)
Hypothesis HD : forall s la d, s < ns -> la < g_nterm g -> raw g p s la d -> live d ->
  find_shift_action t (num s) la = LAct (tcode d).

Definition room (n : nat) : Prop := t_limit t = 0 \/ n <= t_limit t.

(** One iteration of the loop of [parse] that neither fails nor accepts. *)
Inductive cstep : conf -> conf -> Prop :=
| c_reduce pp pp' inp tp rest r : ps_status pp = Normal -> ps_stack pp = tp :: rest ->
    find_shift_action t (e_state tp) (la_of inp) = LAct (t_nstate t + r) -> r < t_nrule t ->
    yy_reduce t h pp r = ROk tt pp' -> ps_status pp' = Normal -> cstep (pp, inp) (pp', inp)
| c_shift pp pp' a m inp tp rest q : ps_status pp = Normal -> ps_stack pp = tp :: rest ->
    find_shift_action t (e_state tp) a = LAct q -> q < t_nstate t -> a <> 0 ->
    yy_shift t h pp q a m = ROk tt pp' ->
    cstep (pp, (a, m) :: inp) (log (set_count pp' (ps_count pp' - 1)) (EvShift a), inp).

Inductive csteps : conf -> conf -> Prop :=
| cst_refl c : csteps c c
| cst_step c c' c'' : cstep c c' -> csteps c' c'' -> csteps c c''.
Lemma csteps_trans c c' c'' : csteps c c' -> csteps c' c'' -> csteps c c''.
Proof. induction 1; auto. intros. econstructor; eauto. Qed.
Lemma csteps_one c c' : cstep c c' -> csteps c c'.
Proof. intros. econstructor; eauto. constructor. Qed.

(** The rest of a run from the middle. *)
Definition resume (n : nat) (c : conf) : res M X E R (R * X) :=
  rbind (parse_all n t h (fst c) (snd c)) (fun _ p1 => end_of_input n t h p1).

Lemma cstep_resume n c c' : cstep c c' -> resume n c' <> RFuel -> resume (S n) c = resume n c'.
Proof.
  intros H. destruct H as [pp pp' inp tp rest r Hn Hst Hf Hr Hy Hn'|pp pp' a m inp tp rest q Hn Hst Hf Hq Ha Hy].
  - assert (Hone : forall m, parse_token_2 (S n) t h pp (la_of inp) m = parse_token_2 n t h pp' (la_of inp) m).
    { intros m. rewrite parse_token_2_S, Hn, Hst, Hf.
      replace (t_nstate t + r <? t_nstate t) with false by (symmetry; apply Nat.ltb_ge; lia).
      replace (t_nstate t + r <? t_nstate t + t_nrule t) with true by (symmetry; apply Nat.ltb_lt; lia).
      replace (t_nstate t + r - t_nstate t) with r by lia. now rewrite Hy. }
    unfold resume. destruct inp as [|[a m] inp]; cbn [fst snd parse_all rbind la_of] in *; intros HF.
    + unfold end_of_input, parse_token in *. rewrite Hn, Hn' in *. now rewrite Hone.
    + unfold parse_token in *. rewrite Hn, Hn' in *. rewrite Hone.
      destruct (parse_token_2 n t h pp' a m) as [[] p1|e p1| |] eqn:E1; cbn [rbind] in *; auto.
      destruct (parse_all n t h p1 inp) as [[] p2|e p2| |] eqn:E2; cbn [rbind] in *; [| | |contradiction].
      * rewrite (parse_all_mono t h n (S n)); auto; [|congruence]. rewrite E2. cbn [rbind]. now apply end_of_input_mono; auto.
      * rewrite (parse_all_mono t h n (S n)); auto; [|congruence]. now rewrite E2.
      * rewrite (parse_all_mono t h n (S n)); auto; [|congruence]. now rewrite E2.
  - intros HF. unfold resume in *. cbn [fst snd parse_all] in *. unfold parse_token at 1. rewrite Hn, parse_token_2_S, Hn, Hst, Hf.
    replace (q <? t_nstate t) with true by (symmetry; apply Nat.ltb_lt; lia).
    replace (a =? 0) with false by (symmetry; apply Nat.eqb_neq; lia). rewrite Hy. cbn [rbind].
    match goal with |- context [parse_all _ _ _ ?q0 inp] => set (p1 := q0) in * end.
    destruct (parse_all n t h p1 inp) as [[] p2|e p2| |] eqn:E2; cbn [rbind] in *; [| | |contradiction].
    + rewrite (parse_all_mono t h n (S n)); auto; [|congruence]. rewrite E2. cbn [rbind]. now apply end_of_input_mono; auto.
    + rewrite (parse_all_mono t h n (S n)); auto; [|congruence]. now rewrite E2.
    + rewrite (parse_all_mono t h n (S n)); auto; [|congruence]. now rewrite E2.
Qed.

Lemma csteps_resume c c' : csteps c c' -> forall n, resume n c' <> RFuel -> exists n', resume n' c = resume n c'.
Proof.
  induction 1 as [c|c c1 c2 S H IH]; intros n HF; [eauto|]. destruct (IH n HF) as [n' En].
  exists (Datatypes.S n'). rewrite (cstep_resume _ _ _ S); auto. congruence.
Qed.

(** The next thing that happens is a reduction whose block returns the error [e]. *)
Definition fails (c : conf) (e : E) (x : X) : Prop :=
  exists tp rest r pp', ps_status (fst c) = Normal /\ ps_stack (fst c) = tp :: rest /\
    find_shift_action t (e_state tp) (la_of (snd c)) = LAct (t_nstate t + r) /\ r < t_nrule t /\
    yy_reduce t h (fst c) r = RErr e pp' /\ ps_extra pp' = x /\ ps_log pp' = EvReduce r :: ps_log (fst c).

Definition calm (e : event) : Prop := match e with EvShift _ | EvReduce _ => True | _ => False end.

Lemma events_calm : forall tr : tree M, Forall calm (events tr).
Proof.
  fix IH 1. intros [a m|r ts]; cbn [events]; [repeat constructor|]. apply Forall_app. split; [|repeat constructor].
  induction ts as [|tr ts IHts]; cbn; [constructor|]. apply Forall_app. split; auto.
Qed.
Lemma events_all_calm (ts : list (tree M)) : Forall calm (flat_map events ts).
Proof. induction ts; simpl; [constructor|]. apply Forall_app. split; auto. apply events_calm. Qed.

Definition quiet (pp pp' : prs) : Prop := exists l, ps_log pp' = l ++ ps_log pp /\ Forall calm l.
Lemma quiet_trans q1 q2 q3 : quiet q1 q2 -> quiet q2 q3 -> quiet q1 q3.
Proof.
  intros (l & E1 & F1) (l' & E2 & F2). exists (l' ++ l). split; [now rewrite E2, E1, app_assoc|]. now apply Forall_app.
Qed.
Lemma quiet_log pp pp' l : ps_log pp' = rev l ++ ps_log pp -> Forall calm l -> quiet pp pp'.
Proof. intros H F. exists (rev l). split; auto. now apply Forall_rev. Qed.

Lemma room_shift (pp : prs) q a m : room (S (List.length (ps_stack pp))) ->
  yy_shift t h pp q a m = ROk tt (set_stack pp (mkEntry q a m :: ps_stack pp)).
Proof.
  intros H. unfold yy_shift. destruct H as [->|H]; [reflexivity|].
  replace (t_limit t <=? List.length (ps_stack pp)) with false by (symmetry; apply Nat.leb_gt; lia).
  now rewrite andb_false_r.
Qed.

Lemma room_le n n' : room n -> n' <= n -> room n'.
Proof. intros [H|H] L; [left; auto|right; lia]. Qed.

Definition read_one (Y : nat) (tr : tree M) : Prop := forall (pp : prs) st Xs s bot k rest,
  ps_status pp = Normal -> spine st Xs s -> ps_stack pp = st ++ [bot] -> e_state bot = num 0 ->
  item p s k -> kpost g k = Some Y -> la_of rest < g_nterm g ->
  (forall q, In q (rules_of g Y) -> AutoFacts.look p s (q, 0) (la_of rest)) ->
  room (List.length (ps_stack pp) + need tr) ->
  match eval h tr (ps_extra pp) with
  | EvOk x v => exists q e pp', edge g p s Y q /\ csteps (pp, yield tr ++ rest) (pp', rest) /\
      ps_stack pp' = e :: ps_stack pp /\ e_state e = num q /\ e_minor e = v /\
      ps_extra pp' = x /\ ps_status pp' = Normal /\ ps_log pp' = rev (events tr) ++ ps_log pp
  | EvErr x e => exists c, csteps (pp, yield tr ++ rest) c /\ fails c e x /\ quiet pp (fst c)
  | EvPanic => True
  end.

Definition read_all (Ys : list nat) (ts : list (tree M)) : Prop := forall r d (pp : prs) st Xs s bot rest,
  Ys = map fst (skipn d (r_rhs (grule g r))) -> d <= rlen g r ->
  ps_status pp = Normal -> spine st Xs s -> ps_stack pp = st ++ [bot] -> e_state bot = num 0 ->
  AutoFacts.look p s (r, d) (la_of rest) -> la_of rest < g_nterm g ->
  room (List.length (ps_stack pp) + needs ts) ->
  match eval_list h ts (ps_extra pp) with
  | EvOk x vs => exists st1 s' pp', csteps (pp, flat_map yield ts ++ rest) (pp', rest) /\
      ps_stack pp' = st1 ++ ps_stack pp /\ map e_minor st1 = rev vs /\ List.length st1 = List.length Ys /\
      spine (st1 ++ st) (rev Ys ++ Xs) s' /\ AutoFacts.look p s' (r, rlen g r) (la_of rest) /\
      ps_extra pp' = x /\ ps_status pp' = Normal /\ ps_log pp' = rev (flat_map events ts) ++ ps_log pp
  | EvErr x e => exists c, csteps (pp, flat_map yield ts ++ rest) c /\ fails c e x /\ quiet pp (fst c)
  | EvPanic => True
  end.

Lemma reduce_found (pp : prs) st Xs s bot r (inp : list (nat * M)) : ps_status pp = Normal -> spine st Xs s -> ps_stack pp = st ++ [bot] ->
  e_state bot = num 0 -> AutoFacts.look p s (r, rlen g r) (la_of inp) -> la_of inp < g_nterm g ->
  exists tp rest, ps_stack pp = tp :: rest /\ find_shift_action t (e_state tp) (la_of inp) = LAct (t_nstate t + r) /\ r < t_nrule t.
Proof.
  intros Hn Hsp Est Hb Hl Hla. destruct (spine_top g p p4 st Xs s bot Hsp Hb) as (tp & rest & Et & Etop).
  exists tp, rest. split; [congruence|]. rewrite Etop, (t_ns g p p3 p4 t P), (t_nr g p p3 p4 t P). split.
  - rewrite (HD s (la_of inp) (Reduce r)); auto.
    + eapply (spine_range g p p3 p4 t P); eauto.
    + now constructor.
    + exact I.
  - eapply (item_rule g p p3 p4 t P). eapply look_item; eauto.
Qed.

Theorem reads :
  (forall Y (tr : tree M), derives g (direct g) Y tr -> read_one Y tr) /\
  (forall Ys (ts : list (tree M)), derives_all g (direct g) Ys ts -> read_all Ys ts).
Proof.
  apply derives_both.
  - intros a m Y Ha pp st Xs s bot k rest Hn Hsp Est Hb Hi HY Hla _ Hroom. cbn [eval yield app need] in *.
    destruct (au_next g p A _ _ _ Hi HY) as [q Hq].
    assert (Hraw : raw g p s a (Shift q)) by (econstructor; eauto; now apply direct_covers).
    pose proof (spine_range g p p3 p4 t P _ _ _ Hsp) as Hs.
    assert (Ha0 : a <> 0).
    { intros ->. eapply (raw_zero g p p3 p4 t P); eauto. }
    destruct (spine_top g p p4 st Xs s bot Hsp Hb) as (tp & rest' & Et & Etop).
    pose proof (room_shift pp (num q) a m) as Hsh. rewrite Nat.add_1_r in Hroom. specialize (Hsh Hroom).
    exists q, (mkEntry (num q) a m). eexists. splits; [exact Hq| |..].
    + apply csteps_one. eapply c_shift with (tp := tp) (rest := rest') (q := num q); eauto; [congruence| |].
      * rewrite Etop. rewrite (HD s a (Shift q)); auto; [|exact I]. destruct Ha as [T _]. eapply is_term_lt; eauto.
      * rewrite (t_ns g p p3 p4 t P). apply (num_lt g p p3 p4 t P). apply (au_edge g p A _ _ _ Hq).
    + reflexivity.
    + reflexivity.
    + reflexivity.
    + reflexivity.
    + exact Hn.
    + reflexivity.
  - intros r ru ts Hr Hts IH pp st Xs s bot k rest Hn Hsp Est Hb Hi HY Hla Hlook Hroom.
    rewrite eval_node. pose proof (grule_nth g _ _ Hr) as Er. rewrite need_node in Hroom. cbn [yield events].
    assert (Hlk : AutoFacts.look p s (r, 0) (la_of rest)) by (apply Hlook, in_rules_of; exists ru; auto).
    specialize (IH r 0 pp st Xs s bot rest). cbn [skipn] in IH. rewrite Er in IH. specialize (IH eq_refl (Nat.le_0_l _) Hn Hsp Est Hb Hlk Hla).
    specialize (IH (room_le _ (List.length (ps_stack pp) + needs ts) Hroom ltac:(lia))).
    destruct (eval_list h ts (ps_extra pp)) as [x vs|x e|]; auto.
    destruct IH as (st1 & s' & pp' & S1 & Est1 & Ev & El & Sp1 & Lk1 & Ex & Hn1 & Hlog).
    pose proof (look_item p _ _ _ Lk1) as Hi1.
    assert (Est2 : ps_stack pp' = (st1 ++ st) ++ [bot]) by now rewrite Est1, Est, app_assoc.
    destruct (reduce_found pp' (st1 ++ st) _ s' bot r rest Hn1 Sp1 Est2 Hb Lk1 Hla) as (tp & rst & Etp & Hf & Hrt).
    destruct (yy_reduce_eq g p p3 p4 t P h pp' r (st1 ++ st) _ s' bot Sp1 Est2 Hb Hi1) as (sa & sb & Xa & Xb & s0 & Es & EX & L & HX & Hs & HC).
    assert (Lsa : List.length sa = List.length st1).
    { rewrite L, El, map_length, <- Er. apply (f_equal (@List.length nat)) in HX. now rewrite rev_length, map_length in HX. }
    symmetry in Es. apply app_split_len in Es as [-> ->]; auto.
    assert (Xb = Xs) as ->.
    { symmetry in EX. apply app_split_len in EX as [_ E2]; auto. rewrite <- L, El, rev_length. reflexivity. }
    assert (s0 = s) as ->.
    { eapply (path_fun g p A); eapply spine_path; eauto. }
    destruct (au_next g p A _ _ _ Hi HY) as [q Hq].
    assert (Hns : r_lhs (grule g r) <> g_start g) by (rewrite Er; apply (edge_sym g W p A _ _ _ Hq)).
    destruct HC as [(Hst & _)|(_ & q' & Hq' & Hy)]; [contradiction|].
    assert (q' = q) as -> by (rewrite Er in Hq'; eapply (au_fun g p A); eauto).
    replace (rev (map e_minor st1)) with vs in Hy by (rewrite Ev, rev_involutive; auto).
    rewrite Ex in Hy. unfold finish. destruct (h_reduce h r vs x) as [[x' [v|e]]|]; auto.
    + set (pp2 := after_reduce pp' r x' (st ++ [bot])) in *.
      exists q, (mkEntry (num q) (r_lhs (grule g r)) v), (set_stack pp2 (mkEntry (num q) (r_lhs (grule g r)) v :: ps_stack pp2)).
      splits; [exact Hq| |..].
      * eapply csteps_trans; [exact S1|]. apply csteps_one. eapply (c_reduce pp' _ rest tp rst r); auto.
        rewrite Hy. apply room_shift. cbn. rewrite <- Est. eapply room_le; [exact Hroom|lia].
      * cbn. now rewrite Est.
      * reflexivity.
      * reflexivity.
      * reflexivity.
      * exact Hn1.
      * cbn. rewrite Hlog, rev_app_distr. reflexivity.
    + exists (pp', rest). splits; auto.
      * exists tp, rst, r. eexists. cbn [fst snd]. splits; eauto.
      * eapply quiet_log; [exact Hlog|]. apply events_all_calm.
  - intros r d pp st Xs s bot rest Ed Hd Hn Hsp Est Hb Lk Hla _. cbn. exists [], s, pp. splits; auto; [constructor|].
    destruct (skipn d (r_rhs (grule g r))) eqn:Es; [|discriminate].
    assert (Hz : List.length (skipn d (r_rhs (grule g r))) = 0) by now rewrite Es. rewrite skipn_length in Hz.
    unfold rlen in *. replace (List.length (r_rhs (grule g r))) with d by lia. auto.
  - intros Y tr Ys ts Ht IHt Hts IHts r d pp st Xs s bot rest Ed Hd Hn Hsp Est Hb Lk Hla Hroom.
    destruct (skipn d (r_rhs (grule g r))) as [|[Y' al] rhs'] eqn:Es; [discriminate|].
    cbn [map fst] in Ed. injection Ed as <- ->. apply skip_S in Es as [En Es].
    assert (HY : kpost g (r, d) = Some Y) by (unfold kpost; cbn [fst snd]; now rewrite En).
    assert (Hrest : krest g (r, d) = map fst rhs') by (unfold krest; cbn [fst snd]; now rewrite Es).
    pose proof (spread_of g p A _ _ _ Lk) as Sd. pose proof (look_item p _ _ _ Lk) as Hi.
    destruct (direct_first g M) as [_ DF]. destruct (DF _ _ Hts) as [D1 D2].
    cbn [needs] in Hroom. set (rest1 := flat_map yield ts ++ rest).
    assert (H1 := IHt pp st Xs s bot (r, d) rest1 Hn Hsp Est Hb Hi HY).
    assert (Hla1 : la_of rest1 < g_nterm g).
    { unfold rest1. destruct (flat_map yield ts) as [|[a m] w] eqn:Yd; auto. simpl. eapply is_term_lt; eauto. now destruct (D2 _ _ _ eq_refl). }
    assert (Hlk1 : forall q, In q (rules_of g Y) -> AutoFacts.look p s (q, 0) (la_of rest1)).
    { intros q Hq. apply (look_of g p A). unfold rest1. destruct (flat_map yield ts) as [|[a m] w] eqn:Yd.
      - simpl. eapply sp_null; eauto; [exists Y; auto|]. rewrite Hrest. auto.
      - simpl. eapply sp_first; eauto; [exists Y; auto|]. rewrite Hrest. now destruct (D2 _ _ _ eq_refl). }
    specialize (H1 Hla1 Hlk1 (room_le _ (List.length (ps_stack pp) + need tr) Hroom ltac:(lia))).
    cbn [eval_list flat_map]. rewrite <- app_assoc. fold rest1. destruct (eval h tr (ps_extra pp)) as [x v|x e|].
    2:{ exact H1. } 2:{ exact I. }
    destruct H1 as (q & e & pp1 & Hq & S1 & Est1 & Ee & Em & Ex & Hn1 & Hlog1).
    assert (Hlt : d < List.length (r_rhs (grule g r))) by (apply nth_error_Some; congruence).
    assert (Sp1 : spine (e :: st) (Y :: Xs) q) by (econstructor; eauto).
    assert (Lk1 : AutoFacts.look p q (r, S d) (la_of rest)).
    { apply (look_of g p A). change (r, S d) with (kadv (r, d)). eapply sp_goto; eauto. }
    specialize (IHts r (S d) pp1 (e :: st) (Y :: Xs) q bot rest). rewrite Es in IHts.
    assert (Est1' : ps_stack pp1 = (e :: st) ++ [bot]) by (rewrite Est1, Est; reflexivity).
    specialize (IHts eq_refl Hlt Hn1 Sp1 Est1' Hb Lk1 Hla).
    rewrite Est1 in IHts. cbn [List.length] in IHts.
    specialize (IHts (room_le _ (S (List.length (ps_stack pp)) + needs ts) Hroom ltac:(lia))).
    rewrite Ex in IHts. fold rest1 in IHts. destruct (eval_list h ts x) as [x2 vs|x2 e2|]; auto.
    + destruct IHts as (st1 & s' & pp' & S2 & Est2 & Ev & El & Sp2 & Lk2 & Ex2 & Hn2 & Hlog2).
      exists (st1 ++ [e]), s', pp'. splits; auto.
      * eapply csteps_trans; eauto.
      * rewrite Est2, <- app_assoc. reflexivity.
      * rewrite map_app, Ev. cbn. now rewrite Em.
      * rewrite app_length, El. cbn. lia.
      * rewrite <- app_assoc. cbn [app rev]. rewrite <- app_assoc. exact Sp2.
      * rewrite Hlog2, Hlog1, rev_app_distr, app_assoc. reflexivity.
    + destruct IHts as (c & S2 & F & Q). exists c. splits; auto.
      * eapply csteps_trans; eauto.
      * eapply quiet_trans; [|exact Q]. eapply quiet_log; [exact Hlog1|]. apply events_calm.
Qed.

(** ** Whole inputs *)
Definition fits (tr : tree M) : Prop := match tr with TNode _ ts => room (S (needs ts)) | TTok _ _ => True end.

Theorem run_complete (tr : tree M) x : derives g (direct g) (g_start g) tr -> fits tr ->
  match eval h tr x with
  | EvOk x' v => match h_accept h v with
                 | Some root => exists n pp, run n t h x (yield tr) = ROk (root, x') pp /\ ps_log pp = EvAccept :: rev (events tr)
                 | None => exists n, run n t h x (yield tr) = RPanic
                 end
  | EvErr x' e => exists n pp, run n t h x (yield tr) = RErr e pp /\ ps_extra pp = x' /\ ps_status pp = Failed /\ Forall calm (ps_log pp)
  | EvPanic => True
  end.
Proof.
  intros H Hfit. inversion H as [a m Y Hm|r ru ts Hr Hts El]; subst.
  { exfalso. destruct (wg_start g W) as [K _]. destruct Hm as [T [[E1 _]|(ms & K' & _)]]; [|congruence].
    rewrite <- E1 in T. unfold is_term in T. congruence. }
  assert (Hin : In r (rules_of g (g_start g))) by (apply in_rules_of; exists ru; auto).
  pose proof (grule_nth g _ _ Hr) as Er. destruct reads as [_ RA].
  assert (Hlk : AutoFacts.look p 0 (r, 0) 0) by (apply (look_of g p A); now constructor).
  pose proof (RA _ _ Hts r 0 (new_parser h x) [] [] 0 (mkEntry 0 0 (h_unit h)) []) as HA. cbn [skipn] in HA. rewrite Er in HA.
  specialize (HA eq_refl (Nat.le_0_l _) eq_refl (spine_bot g p p4) eq_refl (eq_sym (num_0 g p p3 p4 t P)) Hlk (wg_nterm_pos g W) Hfit).
  rewrite eval_node. cbn [ps_extra new_parser] in HA.
  assert (Erun : forall n, run n t h x (yield (TNode r ts)) = resume n (new_parser h x, flat_map yield ts ++ [])).
  { intros n. rewrite app_nil_r. reflexivity. }
  assert (Hfail : forall c e x', csteps (new_parser h x, flat_map yield ts ++ []) c -> fails c e x' -> quiet (new_parser h x) (fst c) ->
    exists n pp, run n t h x (yield (TNode r ts)) = RErr e pp /\ ps_extra pp = x' /\ ps_status pp = Failed /\ Forall calm (ps_log pp)).
  { intros [pp inp] e x' S F (l & Elg & Fl). cbn [fst snd] in *. destruct F as (tp & rst & r0 & pp' & Hn & Hst & Hf & Hr0 & Hy & Hx & Hl).
    cbn [fst snd] in *. cbn [ps_log new_parser] in Elg. rewrite app_nil_r in Elg.
    assert (Hone : forall m, parse_token 1 t h pp (la_of inp) m = RErr e (set_status pp' Failed)).
    { intros m. unfold parse_token. rewrite Hn, parse_token_2_S, Hn, Hst, Hf.
      replace (t_nstate t + r0 <? t_nstate t) with false by (symmetry; apply Nat.ltb_ge; lia).
      replace (t_nstate t + r0 <? t_nstate t + t_nrule t) with true by (symmetry; apply Nat.ltb_lt; lia).
      replace (t_nstate t + r0 - t_nstate t) with r0 by lia. now rewrite Hy. }
    assert (Hres : resume 1 (pp, inp) = RErr e (set_status pp' Failed)).
    { unfold resume. cbn [fst snd]. destruct inp as [|[a m] inp]; cbn [parse_all rbind la_of] in *.
      - unfold end_of_input. now rewrite Hone.
      - now rewrite Hone. }
    destruct (csteps_resume _ _ S 1) as [n' En]; [congruence|]. exists n', (set_status pp' Failed). rewrite Erun, En, Hres. splits; auto.
    cbn. rewrite Hl, Elg. constructor; [exact I|auto]. }
  destruct (eval_list h ts x) as [x1 vs|x1 e|]; auto.
  2:{ destruct HA as (c & S & F & Q). eapply Hfail; eauto. }
  destruct HA as (st1 & s' & pp1 & S1 & Est1 & Ev & Ll & Sp1 & Lk1 & Ex & Hn1 & Hlog).
  cbn [ps_stack new_parser ps_log] in *. rewrite app_nil_r in *.
  destruct (reduce_found pp1 st1 _ s' _ r [] Hn1 Sp1 Est1 (eq_sym (num_0 g p p3 p4 t P)) Lk1 (wg_nterm_pos g W)) as (tp & rst & Etp & Hf & Hrt).
  destruct (yy_reduce_eq g p p3 p4 t P h pp1 r st1 _ s' _ Sp1 Est1 (eq_sym (num_0 g p p3 p4 t P)) (look_item p _ _ _ Lk1)) as (sa & sb & Xa & Xb & s0 & Es & EX & L & HX & Hs & HC).
  assert (Hst : r_lhs (grule g r) = g_start g) by congruence.
  destruct HC as [(_ & -> & -> & Hy)|(Hst' & _)]; [|contradiction]. rewrite app_nil_r in Es. subst sa.
  replace (rev (map e_minor st1)) with vs in Hy by (rewrite Ev, rev_involutive; auto). rewrite Ex in Hy.
  unfold finish. destruct (h_reduce h r vs x1) as [[x' [v|e]]|] eqn:Eh; auto.
  - assert (Hpt : parse_token 2 t h pp1 0 (h_unit h) =
        match h_accept h v with
        | Some root => ROk tt (log (set_status (set_stack (after_reduce pp1 r x' [mkEntry 0 0 (h_unit h)]) []) (Accepted root)) EvAccept)
        | None => RPanic end).
    { unfold parse_token. rewrite Hn1, parse_token_2_S, Hn1, Etp. cbn [la_of] in Hf. rewrite Hf.
      replace (t_nstate t + r <? t_nstate t) with false by (symmetry; apply Nat.ltb_ge; lia).
      replace (t_nstate t + r <? t_nstate t + t_nrule t) with true by (symmetry; apply Nat.ltb_lt; lia).
      replace (t_nstate t + r - t_nstate t) with r by lia. rewrite Hy. destruct (h_accept h v) as [root|]; reflexivity. }
    destruct (h_accept h v) as [root|] eqn:Ea.
    + match type of Hpt with _ = ROk tt ?q0 => set (pf := q0) in * end.
      assert (Hres : resume 2 (pp1, []) = ROk (root, x') pf).
      { unfold resume. cbn [fst snd parse_all rbind]. unfold end_of_input. rewrite Hpt. reflexivity. }
      destruct (csteps_resume _ _ S1 2) as [n' En]; [congruence|]. exists n', pf. rewrite Erun, En, Hres. split; auto.
      cbn. rewrite Hlog, rev_app_distr. reflexivity.
    + assert (Hres : resume 2 (pp1, []) = RPanic).
      { unfold resume. cbn [fst snd parse_all rbind]. unfold end_of_input. now rewrite Hpt. }
      destruct (csteps_resume _ _ S1 2) as [n' En]; [congruence|]. exists n'. rewrite Erun, En, Hres. reflexivity.
  - apply (Hfail (pp1, [])).
    + exact S1.
    + exists tp, rst, r. eexists. cbn [fst snd]. splits; eauto.
    + eapply quiet_log; [|apply events_all_calm]. cbn [fst ps_log new_parser]. rewrite app_nil_r. exact Hlog.
Qed.
End Complete.
