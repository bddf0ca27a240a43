(** The moves of an accepted run are those of a derivation tree, in order (C50). *)
From Verif Require Import Base Syntax BaseFacts FrontEnd First States Actions Tables Runtime Spec WfGrammar FirstFacts ClosureFacts AutoFacts LalrFacts ActFacts CompFacts LookFacts PipeFacts RunFacts
  SoundFacts CompleteFacts.

Section Trace.
Context (g : grammar) (p p3 p4 : pst) (t : tables) (P : Pipe g p p3 p4 t).
Context {M X E R : Type} (h : hooks M X E R).
Let W := pp_wf _ _ _ _ _ P.
Let A := pp_aut _ _ _ _ _ P.
Notation ns := (List.length (p_states p)).
Notation nr := (List.length (g_rules g)).
Notation num := (state_num g p4).
Notation spine := (spine g p p4 (M := M)).
Notation prs := (parser M X R).

Definition traced (x0 : X) (w : list (nat * M)) (pp : prs) : Prop :=
  exists st Xs s bot trees, spine st Xs s /\ ps_stack pp = st ++ [bot] /\ e_state bot = num 0 /\
    shape g (tok_match g) w trees Xs /\ eval_list h trees x0 = EvOk (ps_extra pp) (map e_minor (rev st)) /\ ps_log pp = rev (flat_map events trees).
Definition closed (x0 : X) (w : list (nat * M)) (pp : prs) : Prop :=
  exists tree v root, ps_status pp = Accepted root /\ sentence g tree w /\
    eval h tree x0 = EvOk (ps_extra pp) v /\ h_accept h v = Some root /\ ps_log pp = EvAccept :: rev (events tree).

Lemma new_traced x : traced x [] (new_parser h x).
Proof.
  destruct (new_good g p p3 p4 t P h x) as (st & Xs & s & bot & trees & H1 & H2 & H3 & H4 & H5). exists [], [], 0, (mkEntry 0 0 (h_unit h)), []. splits; auto.
  - constructor.
  - cbn. symmetry. exact (num_0 g p p3 p4 t P).
  - split; auto. constructor.
Qed.

Lemma traced_reduce x0 w (pp pp' : prs) st Xs s bot trees r :
  spine st Xs s -> ps_stack pp = st ++ [bot] -> e_state bot = num 0 ->
  shape g (tok_match g) w trees Xs -> eval_list h trees x0 = EvOk (ps_extra pp) (map e_minor (rev st)) -> ps_log pp = rev (flat_map events trees) ->
  item p s (r, rlen g r) -> yy_reduce t h pp r = ROk tt pp' ->
  (r_lhs (grule g r) = g_start g /\ closed x0 w pp') \/
  (r_lhs (grule g r) <> g_start g /\ ps_status pp' = ps_status pp /\ traced x0 w pp').
Proof.
  intros Hsp Est Hb Hsh Hev Hlog Hi Hred. pose proof (item_rule g p p3 p4 t P _ _ _ Hi) as Hr.
  destruct (yy_reduce_eq g p p3 p4 t P h pp r st Xs s bot Hsp Est Hb Hi) as (st1 & st2 & Xs1 & Xs2 & s0 & -> & -> & L & HX & Hs & HC).
  destruct (shape_reduce g (tok_match g) _ _ _ _ _ Hsh Hr HX) as (tr1 & tr2 & -> & L1 & Hd & Hsh').
  destruct (eval_reduce h tr1 tr2 x0 _ st1 st2 ltac:(congruence) Hev) as (x1 & E2 & E1).
  assert (HLr : EvReduce r :: ps_log pp = rev (flat_map events (tr2 ++ [TNode r tr1]))).
  { rewrite Hlog, !flat_map_app, !rev_app_distr. cbn [flat_map events]. rewrite app_nil_r, rev_app_distr. reflexivity. }
  destruct HC as [(Hst & -> & -> & Hy)|(Hst & q & Hq & Hy)]; rewrite Hred in Hy.
  - left. split; auto. destruct (h_reduce h r (rev (map e_minor st1)) (ps_extra pp)) as [[x [v|e]]|] eqn:Eh; try discriminate.
    destruct (h_accept h v) as [root|] eqn:Ea; [|discriminate]. injection Hy as ->.
    assert (Ev : eval h (TNode r tr1) x1 = EvOk x v) by (rewrite eval_node, E1; unfold finish; now rewrite Eh).
    assert (tr2 = []) as ->.
    { destruct Hsh' as [F Y]. apply SoundFacts.Forall2_length in F. rewrite app_length in F. simpl in F. destruct tr2; auto. simpl in F. lia. }
    exists (TNode r tr1), v, root. splits; auto.
    + destruct Hsh' as [F Y]. split; [now rewrite <- Hst|]. simpl in Y. now rewrite app_nil_r in Y.
    + simpl in E2. injection E2 as <-. exact Ev.
    + cbn [app flat_map] in HLr. rewrite app_nil_r in HLr. rewrite <- HLr. reflexivity.
  - right. destruct (h_reduce h r (rev (map e_minor st1)) (ps_extra pp)) as [[x [v|e]]|] eqn:Eh; try discriminate.
    symmetry in Hy. apply (yy_shift_ok t h) in Hy. subst pp'. splits; auto.
    exists (mkEntry (num q) (r_lhs (grule g r)) v :: st2), (r_lhs (grule g r) :: Xs2), q, bot, (tr2 ++ [TNode r tr1]).
    splits; auto.
    + econstructor; eauto.
    + assert (Ev : eval h (TNode r tr1) x1 = EvOk x v) by (rewrite eval_node, E1; unfold finish; now rewrite Eh).
      rewrite eval_list_app, E2. cbn [eval_list]. rewrite Ev. cbn. now rewrite map_app.
Qed.

Lemma token_traced fuel : forall x0 w (pp pp' : prs) major minor,
  ps_status pp = Normal -> traced x0 w pp -> tokenish g major ->
  parse_token_2 fuel t h pp major minor = ROk tt pp' ->
  dropped pp' \/ (major = 0 /\ closed x0 w pp') \/
  (major <> 0 /\ ps_status pp' = Normal /\ traced x0 (w ++ [(major, minor)]) pp').
Proof.
  induction fuel as [|fuel IH]; intros x0 w pp pp' major minor Hn Hg Ht H; [discriminate|].
  cbn [parse_token_2] in H. rewrite Hn in H. pose proof Hg as (st & Xs & s & bot & trees & Hsp & Est & Hb & Hsh & Hev & Hlog).
  destruct (spine_top g p p4 _ _ _ bot Hsp Hb) as (top & rest & Et & Etop). rewrite Est, Et in H. rewrite Etop in H.
  destruct (shift_answer g p p3 p4 t P s major (spine_range g p p3 p4 t P _ _ _ Hsp) Ht) as (a & Ha & HA). rewrite Ha in H.
  rewrite (t_ns g p p3 p4 t P), (t_nr g p p3 p4 t P) in H.
  inversion HA as [Y q Hq Hm Hz Ea|r b Hl Hz Ea|Ea]; subst a.
  - pose proof (num_lt g p p3 p4 t P q (proj1 (au_edge g p A _ _ _ Hq))) as Hlt. apply Nat.ltb_lt in Hlt. rewrite Hlt in H.
    destruct (Nat.eqb_spec major 0) as [|_]; [contradiction|].
    destruct (yy_shift t h pp (num q) major minor) as [[] p1|e p1| |] eqn:Es; try discriminate. simpl in H. injection H as <-.
    apply yy_shift_ok in Es. subst p1. right. right. splits; auto.
    exists (mkEntry (num q) major minor :: st), (Y :: Xs), q, bot, (trees ++ [TTok major minor]). splits; auto.
    + econstructor; eauto.
    + cbn. now rewrite Est.
    + now apply shape_push.
    + rewrite eval_list_app, Hev. cbn. now rewrite map_app.
    + cbn. rewrite Hlog, flat_map_app, rev_app_distr. reflexivity.
  - replace (ns + r <? ns) with false in H by (symmetry; apply Nat.ltb_ge; lia).
    pose proof (item_rule g p p3 p4 t P _ _ _ (look_item p _ _ _ Hl)) as Hr. replace (ns + r <? ns + nr) with true in H by (symmetry; apply Nat.ltb_lt; lia).
    replace (ns + r - ns) with r in H by lia.
    destruct (yy_reduce t h pp r) as [[] p1|e p1| |] eqn:Er; try discriminate. simpl in H.
    destruct (traced_reduce _ _ _ _ _ _ _ _ _ _ Hsp Est Hb Hsh Hev Hlog (look_item p _ _ _ Hl) Er) as [(Hst & HF)|(Hst & Hs1 & HG)].
    + right. left. split; [auto|]. destruct fuel; [discriminate|]. cbn [parse_token_2] in H. destruct HF as (tr & v & root & Hs1 & HF).
      rewrite Hs1 in H. injection H as <-. exists tr, v, root. auto.
    + apply (IH x0 w p1 pp' major minor); auto. now rewrite Hs1.
  - replace (ns + nr <? ns) with false in H by (symmetry; apply Nat.ltb_ge; lia). rewrite Nat.ltb_irrefl, Nat.eqb_refl in H.
    left. apply syntax_error_ok in H as [l Hl]. exists major. rewrite Hl. now left.
Qed.

Lemma parse_token_traced fuel x0 w (pp pp' : prs) major minor :
  ps_status pp = Normal -> traced x0 w pp -> tokenish g major -> parse_token fuel t h pp major minor = ROk tt pp' ->
  dropped pp' \/ (major = 0 /\ closed x0 w pp') \/
  (major <> 0 /\ ps_status pp' = Normal /\ traced x0 (w ++ [(major, minor)]) pp').
Proof.
  intros Hn Hg Ht H. unfold parse_token in H. rewrite Hn in H.
  destruct (parse_token_2 fuel t h pp major minor) as [[] p1|e p1| |] eqn:E2; try discriminate. injection H as <-.
  eapply token_traced; eauto.
Qed.

Theorem parse_all_traced fuel ts : forall x0 w (pp pp' : prs),
  tokens_ok g ts -> ps_status pp = Normal -> traced x0 w pp -> parse_all fuel t h pp ts = ROk tt pp' -> ~ dropped pp' ->
  ps_status pp' = Normal /\ traced x0 (w ++ ts) pp'.
Proof.
  induction ts as [|[a m] ts IH]; intros x0 w pp pp' Hts Hn Hg H Hd; cbn [parse_all] in H.
  - injection H as <-. rewrite app_nil_r. auto.
  - destruct (parse_token fuel t h pp a m) as [[] p1|e p1| |] eqn:E1; try discriminate. cbn [rbind] in H.
    pose proof (Hts a m (or_introl eq_refl)) as Ha.
    destruct (parse_token_traced _ _ _ _ _ _ _ Hn Hg (or_introl (proj2 Ha)) E1) as [D|[[Hz _]|(Hz & Hn1 & Hg1)]].
    + exfalso. apply Hd. eapply dropped_ext; [|exact D]. pose proof (parse_all_ext t h fuel ts p1) as HE. now rewrite H in HE.
    + lia.
    + replace (w ++ (a, m) :: ts) with ((w ++ [(a, m)]) ++ ts) by (rewrite <- app_assoc; reflexivity).
      eapply IH; eauto. intros a' m' Hin. apply (Hts a' m'). now right.
Qed.

Theorem run_traced fuel x ts r x' pp : tokens_ok g ts -> run fuel t h x ts = ROk (r, x') pp -> ~ dropped pp ->
  exists tree v, sentence g tree ts /\ eval h tree x = EvOk x' v /\ h_accept h v = Some r /\ ps_log pp = EvAccept :: rev (events tree).
Proof.
  intros Hts H Hd. unfold run in H. destruct (parse_all fuel t h (new_parser h x) ts) as [[] p1|e p1| |] eqn:E1; try discriminate.
  cbn [rbind] in H. unfold end_of_input in H.
  destruct (parse_token fuel t h p1 0 (h_unit h)) as [[] p2|e p2| |] eqn:E2; try discriminate. cbn [rbind] in H.
  destruct (ps_status p2) as [| |root] eqn:Es; try discriminate. injection H as <- <- <-.
  assert (Hd1 : ~ dropped p1).
  { intros D. apply Hd. eapply dropped_ext; [|exact D]. pose proof (parse_token_ext t h fuel p1 0 (h_unit h)) as HE. now rewrite E2 in HE. }
  destruct (parse_all_traced fuel ts x [] (new_parser h x) p1 Hts eq_refl (new_traced x) E1 Hd1) as [Hn Hg].
  assert (Ht : tokenish g 0) by (left; apply (wg_nterm_pos g W)).
  destruct (parse_token_traced _ _ _ _ _ _ _ Hn Hg Ht E2) as [D|[[_ HF]|(Hz & _)]]; [contradiction| |contradiction].
  destruct HF as (tree & v & root' & Hs & Hsent & Hev & Hac & HL). exists tree, v. splits; auto. congruence.
Qed.
End Trace.

(** ** Runs of the same tokens with different code do the same *)
Section Same.
Context (t : tables) {M X E R M1 X1 E1 R1 : Type} (h : hooks M X E R) (h1 : hooks M1 X1 E1 R1).
Notation states := (map e_state).

Lemma pop_skip {A} n : forall (st : list (entry A)) acc vals rest, pop_n n st acc = Some (vals, rest) -> rest = skipn n st.
Proof. induction n as [|n IH]; intros [|e st] acc vals rest H; cbn in *; try congruence. eapply IH; eauto. Qed.
Lemma reduce_ok {A B C D} (k : hooks A B C D) (pp pp' : parser A B D) r : yy_reduce t k pp r = ROk tt pp' -> ps_status pp = Normal ->
  exists rr top rest, nth_error (t_rules t) r = Some rr /\ skipn (List.length (rr_rhs rr)) (ps_stack pp) = top :: rest /\
    ((exists q v x, find_reduce_action t (e_state top) (rr_lhs rr) = LAct q /\ q < t_nstate t /\
        pp' = set_stack (log (set_extra (set_stack pp (top :: rest)) x) (EvReduce r)) (mkEntry q (rr_lhs rr) v :: top :: rest)) \/
     (find_reduce_action t (e_state top) (rr_lhs rr) = LAct (t_nstate t + t_nrule t + 1) /\ ps_status pp' <> Normal /\ ps_log pp' = EvAccept :: EvReduce r :: ps_log pp)).
Proof.
  intros H HN. unfold yy_reduce in H. destruct (nth_error (t_rules t) r) as [rr|] eqn:Er; [|discriminate]. destruct (pop_n _ _ _) as [[vals rest]|] eqn:Ep; [|discriminate].
  apply pop_skip in Ep. destruct (h_reduce k r vals (ps_extra pp)) as [[x [v|e]]|]; try discriminate. destruct rest as [|top rest]; [discriminate|].
  exists rr, top, rest. splits; auto. destruct (find_reduce_action t (e_state top) (rr_lhs rr)) as [q| |] eqn:Ef; try discriminate.
  destruct (q <? t_nstate t) eqn:Eq.
  - left. apply Nat.ltb_lt in Eq. exists q, v, x. splits; auto. now apply yy_shift_ok in H.
  - destruct (q =? t_nstate t + t_nrule t + 1) eqn:Eq2; [|discriminate]. apply Nat.eqb_eq in Eq2. destruct (h_accept k v) as [root|]; [|discriminate]. injection H as <-. right. cbn. splits; [congruence|discriminate|auto].
Qed.

Lemma states_skip n (st : list (entry M)) (st1 : list (entry M1)) : states st = states st1 -> states (skipn n st) = states (skipn n st1).
Proof. intros H. now rewrite <- !skipn_map, H. Qed.

Lemma same_token n : forall (pp pp' : parser M X R) (qq qq' : parser M1 X1 R1) a m m1,
  ps_status pp = Normal -> ps_status qq = Normal -> states (ps_stack pp) = states (ps_stack qq) ->
  parse_token_2 n t h pp a m = ROk tt pp' -> parse_token_2 n t h1 qq a m1 = ROk tt qq' -> ~ dropped pp' -> ~ dropped qq' ->
  exists l, ps_log pp' = l ++ ps_log pp /\ ps_log qq' = l ++ ps_log qq /\
    ((ps_status pp' = Normal /\ ps_status qq' = Normal /\ states (ps_stack pp') = states (ps_stack qq')) \/ (ps_status pp' <> Normal /\ ps_status qq' <> Normal)).
Proof.
  induction n as [|n IH]; intros pp pp' qq qq' a m m1 Hn Hn1 Hs H H1 Hd Hd1; [discriminate|]. cbn [parse_token_2] in H, H1. rewrite Hn in H. rewrite Hn1 in H1.
  destruct (ps_stack pp) as [|tp rst] eqn:Ep; [discriminate|]. destruct (ps_stack qq) as [|tp1 rst1] eqn:Eq; [discriminate|]. injection Hs as Et Hs. rewrite Et in H.
  destruct (find_shift_action t (e_state tp1) a) as [q| |] eqn:Ef; try discriminate. destruct (q <? t_nstate t).
  - destruct (a =? 0); [discriminate|]. destruct (yy_shift t h pp q a m) as [[] p1|e p1| |] eqn:Es; try discriminate. destruct (yy_shift t h1 qq q a m1) as [[] q1|e q1| |] eqn:Es1; try discriminate.
    apply yy_shift_ok in Es, Es1. subst. cbn [rbind] in H, H1. injection H as <-. injection H1 as <-. exists [EvShift a]. splits; auto. left. cbn. rewrite Ep, Eq. cbn. splits; congruence.
  - destruct (q <? t_nstate t + t_nrule t).
    2:{ destruct (q =? t_nstate t + t_nrule t); [|discriminate]. exfalso. apply Hd. apply syntax_error_ok in H as [l Hl]. exists a. rewrite Hl. now left. }
    destruct (yy_reduce t h pp (q - t_nstate t)) as [[] p1|e p1| |] eqn:Er; try discriminate. destruct (yy_reduce t h1 qq (q - t_nstate t)) as [[] q1|e q1| |] eqn:Er1; try discriminate. cbn [rbind] in H, H1.
    destruct (reduce_ok h _ _ _ Er Hn) as (rr & top & rest & Hrr & Hsk & HC). destruct (reduce_ok h1 _ _ _ Er1 Hn1) as (rr1 & top1 & rest1 & Hrr1 & Hsk1 & HC1).
    assert (rr1 = rr) by congruence. subst rr1. assert (HS : states (top :: rest) = states (top1 :: rest1)).
    { rewrite <- Hsk, <- Hsk1. apply states_skip. rewrite Ep, Eq. cbn. congruence. }
    assert (Etop : e_state top = e_state top1) by (injection HS; auto). rewrite Etop in HC.
    destruct HC as [(k & v & x & Hf & Hk & ->)|(Hf & Hst & HL)], HC1 as [(k1 & v1 & x1 & Hf1 & Hk1 & ->)|(Hf1 & Hst1 & HL1)]; rewrite Hf in Hf1; try (exfalso; injection Hf1 as E0; lia).
    + injection Hf1 as <-. match type of H with parse_token_2 n t h ?z a m = _ => set (p2 := z) in * end. match type of H1 with parse_token_2 n t h1 ?z a m1 = _ => set (q2 := z) in * end.
      destruct (IH p2 pp' q2 qq' a m m1) as (l & L1 & L2 & HR); auto; [exact (f_equal (cons k) HS)|]. exists (l ++ [EvReduce (q - t_nstate t)]). rewrite <- !app_assoc. splits; auto.
    + destruct n as [|n]; [discriminate|]. cbn [parse_token_2] in H, H1. exists [EvAccept; EvReduce (q - t_nstate t)]. destruct (ps_status p1) eqn:S1; [contradiction| |]; destruct (ps_status q1) eqn:S2; try contradiction;
        injection H as <-; injection H1 as <-; (splits; [exact HL|exact HL1|]); right; rewrite S1, S2; split; discriminate.
Qed.

Theorem same_log n ts : forall ts1 (pp pf : parser M X R) (qq qf : parser M1 X1 R1) r r1,
  ps_status pp = Normal -> ps_status qq = Normal -> states (ps_stack pp) = states (ps_stack qq) -> map fst ts = map fst ts1 ->
  rbind (parse_all n t h pp ts) (fun _ p1 => end_of_input n t h p1) = ROk r pf -> rbind (parse_all n t h1 qq ts1) (fun _ p1 => end_of_input n t h1 p1) = ROk r1 qf ->
  ~ dropped pf -> ~ dropped qf -> exists l, ps_log pf = l ++ ps_log pp /\ ps_log qf = l ++ ps_log qq.
Proof.
  assert (EX : forall {A B C D} (k : hooks A B C D) ts (p1 : parser A B D) r pf, rbind (parse_all n t k p1 ts) (fun _ p1 => end_of_input n t k p1) = ROk r pf -> ~ dropped pf -> ~ dropped p1).
  { intros A B C D k l p1 r pf H Hd Hp. apply Hd. pose proof (parse_all_ext t k n l p1) as X1'. destruct (parse_all n t k p1 l) as [[] p2|? ?| |]; try discriminate. cbn [rbind] in H. unfold end_of_input in H.
    pose proof (parse_token_ext t k n p2 0 (h_unit k)) as X2'. destruct (parse_token n t k p2 0 (h_unit k)) as [[] p3|? ?| |]; try discriminate. cbn [rbind] in H. destruct (ps_status p3); try discriminate. injection H as _ <-.
    eapply dropped_ext; [exact X2'|]. eapply dropped_ext; [exact X1'|exact Hp]. }
  induction ts as [|[a m] ts IH]; intros [|[a1 m1] ts1] pp pf qq qf r r1 Hn Hn1 Hs Hm H H1 Hd Hd1; try discriminate; cbn [parse_all rbind] in H, H1.
  - unfold end_of_input, parse_token in H, H1. rewrite Hn in H. rewrite Hn1 in H1. destruct (parse_token_2 n t h pp 0 (h_unit h)) as [[] p1|? ?| |] eqn:E2; try discriminate.
    destruct (parse_token_2 n t h1 qq 0 (h_unit h1)) as [[] q1|? ?| |] eqn:E2'; try discriminate. cbn [rbind] in H, H1. destruct (ps_status p1) eqn:S1; try discriminate. destruct (ps_status q1) eqn:S2; try discriminate.
    injection H as _ <-. injection H1 as _ <-. destruct (same_token n pp p1 qq q1 0 _ _ Hn Hn1 Hs E2 E2' Hd Hd1) as (l & L1 & L2 & _). eauto.
  - cbn [map fst] in Hm. injection Hm as <- Hm. unfold parse_token in H, H1. rewrite Hn in H. rewrite Hn1 in H1. destruct (parse_token_2 n t h pp a m) as [[] p1|? ?| |] eqn:E2; try discriminate.
    destruct (parse_token_2 n t h1 qq a m1) as [[] q1|? ?| |] eqn:E2'; try discriminate. cbn [rbind] in H, H1.
    destruct (same_token n pp p1 qq q1 a m m1 Hn Hn1 Hs E2 E2' (EX _ _ _ _ h _ _ _ _ H Hd) (EX _ _ _ _ h1 _ _ _ _ H1 Hd1)) as (l & L1 & L2 & [(S1 & S2 & S3)|(S1 & S2)]).
    + destruct (IH ts1 p1 pf q1 qf r r1 S1 S2 S3 Hm H H1 Hd Hd1) as (l' & L3 & L4). exists (l' ++ l). now rewrite L3, L4, L1, L2, !app_assoc.
    + exfalso. destruct ts as [|[a' m'] ts]; cbn [parse_all rbind] in H; unfold end_of_input, parse_token in H; destruct (ps_status p1); try (now destruct S1); cbn [rbind] in H; discriminate.
Qed.
End Same.
