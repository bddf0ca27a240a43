(** The generated parser against derivation trees: what a run that meets no syntax
    error has read and computed (C01, C04). *)
From Verif Require Import Base Syntax BaseFacts FrontEnd First States Actions Tables Runtime
  PackFacts Spec WfGrammar FirstFacts ClosureFacts AutoFacts LalrFacts ActFacts CompFacts GroupFacts
  TabFacts LookFacts PipeFacts RunFacts.

(** ** Values of lists of trees *)
Section EvalList.
Context {M X E R : Type} (h : hooks M X E R).

Fixpoint eval_list (ts : list (tree M)) (x : X) : evres (list M) X E :=
  match ts with
  | [] => EvOk x []
  | t :: ts' =>
      match eval h t x with
      | EvOk x' v =>
          match eval_list ts' x' with
          | EvOk x'' vs => EvOk x'' (v :: vs)
          | EvErr x'' e => EvErr x'' e
          | EvPanic => EvPanic
          end
      | EvErr x' e => EvErr x' e
      | EvPanic => EvPanic
      end
  end.

Definition finish (r : nat) (vs : list M) (x : X) : evres M X E :=
  match h_reduce h r vs x with
  | None => EvPanic
  | Some (x', inl v) => EvOk x' v
  | Some (x', inr e) => EvErr x' e
  end.

Lemma eval_node r ts x : eval h (TNode r ts) x =
  match eval_list ts x with
  | EvOk x' vs => finish r vs x'
  | EvErr x' e => EvErr x' e
  | EvPanic => EvPanic
  end.
Proof.
  cbn [eval].
  match goal with |- ?F ts [] x = _ => set (go := F) end.
  enough (H : forall ts acc x, go ts acc x = match eval_list ts x with
    | EvOk x' vs => finish r (rev acc ++ vs) x' | EvErr x' e => EvErr x' e | EvPanic => EvPanic end) by apply (H ts []).
  clear ts x. induction ts as [|t ts IH]; intros acc x; cbn.
  - now rewrite app_nil_r.
  - destruct (eval h t x) as [x' v|x' e|]; auto. rewrite IH. destruct (eval_list ts x') as [x'' vs|x'' e|]; auto.
    simpl. now rewrite <- app_assoc.
Qed.

Lemma eval_list_app ts us x : eval_list (ts ++ us) x =
  match eval_list ts x with
  | EvOk x' vs => match eval_list us x' with
                  | EvOk x'' ws => EvOk x'' (vs ++ ws)
                  | EvErr x'' e => EvErr x'' e
                  | EvPanic => EvPanic
                  end
  | EvErr x' e => EvErr x' e
  | EvPanic => EvPanic
  end.
Proof.
  revert x. induction ts as [|t ts IH]; intros x; cbn.
  - destruct (eval_list us x); auto.
  - destruct (eval h t x) as [x' v|x' e|]; auto. rewrite IH. destruct (eval_list ts x') as [x'' vs|x'' e|]; auto.
    destruct (eval_list us x''); auto.
Qed.
End EvalList.

Section Run.
Context (g : grammar) (p p3 p4 : pst) (t : tables) (P : Pipe g p p3 p4 t).
Context {M X E R : Type} (h : hooks M X E R).
Let W := pp_wf _ _ _ _ _ P.
Let A := pp_aut _ _ _ _ _ P.
Notation ns := (List.length (p_states p)).
Notation nr := (List.length (g_rules g)).
Notation num := (state_num g p4).

(** ** The stack is a path of the automaton *)
Inductive spine : list (entry M) -> list nat -> nat -> Prop :=
| spine_bot : spine [] [] 0
| spine_push st Xs s e Y q : spine st Xs s -> edge g p s Y q -> e_state e = num q ->
    spine (e :: st) (Y :: Xs) q.

Lemma spine_length st Xs s : spine st Xs s -> List.length st = List.length Xs.
Proof. induction 1; simpl; auto. Qed.
Lemma spine_range st Xs s : spine st Xs s -> s < ns.
Proof. induction 1 as [|st Xs s e Y q H IH Hq He]; [apply (au_pos g p A)|apply (au_edge g p A _ _ _ Hq)]. Qed.
Lemma spine_path st Xs s : spine st Xs s -> path g p (rev Xs) s.
Proof. induction 1 as [|st Xs s e Y q H IH Hq He]; simpl; econstructor; eauto. Qed.
Lemma spine_zero st Xs : spine st Xs 0 -> st = [] /\ Xs = [].
Proof. intros H. inversion H; subst; auto. exfalso. eapply no_edge_0; eauto. Qed.

Lemma spine_top st Xs s bot : spine st Xs s -> e_state bot = num 0 ->
  exists top rest, st ++ [bot] = top :: rest /\ e_state top = num s.
Proof. intros H Hb. inversion H; subst; simpl; eauto. Qed.

Lemma firstn_snoc {T} (l : list T) d x : nth_error l d = Some x -> firstn (S d) l = firstn d l ++ [x].
Proof.
  revert d. induction l as [|y l IH]; intros [|d] H; try discriminate; simpl in *; [congruence|].
  f_equal. now apply IH.
Qed.

Lemma spine_pop r d : forall st Xs s, spine st Xs s -> item p s (r, d) ->
  exists st1 st2 Xs1 Xs2 s0, st = st1 ++ st2 /\ Xs = Xs1 ++ Xs2 /\ List.length st1 = d /\ List.length Xs1 = d /\
    rev Xs1 = map fst (firstn d (r_rhs (grule g r))) /\ spine st2 Xs2 s0 /\ item p s0 (r, 0).
Proof.
  induction d as [|d IH]; intros st Xs s Hsp Hi.
  - exists [], st, [], Xs, s. splits; auto.
  - inversion Hsp as [|st' Xs' s' e Y q H Hq He]; subst.
    + pose proof (au_dot g p A _ Hi). discriminate.
    + destruct (au_back g p A _ _ _ _ Hq Hi) as ((r0 & d0) & Hi0 & Hp0 & Hk); [simpl; lia|].
      unfold kadv in Hk. simpl in Hk. injection Hk as <- <-.
      destruct (IH _ _ _ H Hi0) as (st1 & st2 & Xs1 & Xs2 & s0 & -> & -> & L1 & L2 & HX & Hs & Hi').
      exists (e :: st1), st2, (Y :: Xs1), Xs2, s0. splits; auto; try (simpl; congruence). cbn [rev].
      unfold kpost in Hp0. simpl in Hp0. destruct (nth_error (r_rhs (grule g r)) d) as [[Z al]|] eqn:En; [|discriminate].
      simpl in Hp0. injection Hp0 as ->. rewrite HX. rewrite (firstn_snoc _ _ _ En), map_app. reflexivity.
Qed.

Lemma clo_item s k : clo_reach g (kernel g p s) k -> item p s k.
Proof. induction 1 as [k [H _]|k k' H IH Hk]; auto. eapply (au_close g p A); eauto. Qed.

Lemma item_goto s r : item p s (r, 0) ->
  (r_lhs (grule g r) = g_start g /\ s = 0) \/
  (r_lhs (grule g r) <> g_start g /\ exists q, edge g p s (r_lhs (grule g r)) q).
Proof.
  intros Hi. pose proof (au_reach g p A _ _ Hi) as Hc. inversion Hc as [k Hk|k k' Hk Hs]; subst.
  - destruct Hk as [_ [Hz|(-> & _ & Hr)]]; [simpl in Hz; lia|]. left. split; auto. simpl in Hr.
    apply in_rules_of in Hr as (ru & Hru & Hl). now rewrite (grule_nth _ _ _ Hru).
  - right. destruct Hs as (Y & HY & Hr & _). simpl in Hr. apply in_rules_of in Hr as (ru & Hru & Hl).
    rewrite (grule_nth _ _ _ Hru), Hl. destruct (au_next g p A _ _ _ (clo_item _ _ Hk) HY) as [q Hq].
    split; [|eauto]. now destruct (edge_sym g W p A _ _ _ Hq) as (_ & _ & _ & ?).
Qed.

Lemma item_rule s r d : item p s (r, d) -> r < nr.
Proof. intros H. apply (au_valid g p A) in H as [H _]. exact H. Qed.

Lemma look_item s k b : AutoFacts.look p s k b -> item p s k.
Proof. intros (st & c & H1 & H2 & H3 & _). exists st, c. auto. Qed.

Lemma lhs_nt r : r < nr -> kind_at g (r_lhs (grule g r)) = Some KNonTerm.
Proof. intros H. apply (wg_rule g W r). now apply nth_grule. Qed.

(** ** One reduction *)
Lemma pop_n_app (st1 st2 : list (entry M)) acc :
  pop_n (List.length st1) (st1 ++ st2) acc = Some (rev (map e_minor st1) ++ acc, st2).
Proof.
  revert acc. induction st1 as [|e st1 IH]; intros acc; simpl; auto. rewrite IH. now rewrite <- app_assoc.
Qed.

Definition after_reduce (pp : parser M X R) (r : nat) (x : X) (st2 : list (entry M)) : parser M X R :=
  log (set_extra (set_stack pp st2) x) (EvReduce r).

Lemma yy_reduce_eq (pp : parser M X R) r st Xs s bot : spine st Xs s -> ps_stack pp = st ++ [bot] -> e_state bot = num 0 ->
  item p s (r, rlen g r) ->
  exists st1 st2 Xs1 Xs2 s0, st = st1 ++ st2 /\ Xs = Xs1 ++ Xs2 /\ List.length st1 = List.length Xs1 /\
    rev Xs1 = map fst (r_rhs (grule g r)) /\ spine st2 Xs2 s0 /\
    ((r_lhs (grule g r) = g_start g /\ st2 = [] /\ Xs2 = [] /\
      yy_reduce t h pp r =
        match h_reduce h r (rev (map e_minor st1)) (ps_extra pp) with
        | None => RPanic
        | Some (x, inr e) => RErr e (after_reduce pp r x [bot])
        | Some (x, inl v) =>
            match h_accept h v with
            | None => RPanic
            | Some root => ROk tt (log (set_status (set_stack (after_reduce pp r x [bot]) []) (Accepted root)) EvAccept)
            end
        end) \/
     (r_lhs (grule g r) <> g_start g /\ exists q, edge g p s0 (r_lhs (grule g r)) q /\
      yy_reduce t h pp r =
        match h_reduce h r (rev (map e_minor st1)) (ps_extra pp) with
        | None => RPanic
        | Some (x, inr e) => RErr e (after_reduce pp r x (st2 ++ [bot]))
        | Some (x, inl v) => yy_shift t h (after_reduce pp r x (st2 ++ [bot])) (num q) (r_lhs (grule g r)) v
        end)).
Proof.
  intros Hsp Est Hb Hi. destruct (spine_pop _ _ _ _ _ Hsp Hi) as (st1 & st2 & Xs1 & Xs2 & s0 & -> & -> & L1 & L2 & HX & Hs & Hi').
  pose proof (item_rule _ _ _ Hi) as Hr. destruct (rule_entry g p p3 p4 t P r Hr) as (rr & Hrr & Hlhs & Hrhs & _).
  exists st1, st2, Xs1, Xs2, s0. splits; auto; [congruence| |].
  { rewrite HX. unfold rlen. now rewrite firstn_all. }
  assert (Hpop : pop_n (List.length (rr_rhs rr)) (ps_stack pp) [] = Some (rev (map e_minor st1), st2 ++ [bot])).
  { replace (List.length (rr_rhs rr)) with (List.length st1).
    - rewrite Est, <- app_assoc, pop_n_app. now rewrite app_nil_r.
    - rewrite L1. unfold rlen. rewrite <- Hrhs. now rewrite map_length. }
  destruct (spine_top _ _ _ bot Hs Hb) as (top & rest & Et & Etop).
  destruct (item_goto _ _ Hi') as [[Hst ->]|(Hst & q & Hq)].
  - left. destruct (spine_zero _ _ Hs) as [-> ->]. splits; auto. unfold yy_reduce. rewrite Hrr, Hpop. simpl app.
    destruct (h_reduce h r (rev (map e_minor st1)) (ps_extra pp)) as [[x [v|e]]|]; auto.
    rewrite Hlhs, Hb, Hst, (accept_lookup g p p3 p4 t P), (t_ns g p p3 p4 t P), (t_nr g p p3 p4 t P).
    replace (ns + nr + 1 <? ns) with false by (symmetry; apply Nat.ltb_ge; lia). now rewrite Nat.eqb_refl.
  - right. split; auto. exists q. split; auto. unfold yy_reduce. rewrite Hrr, Hpop, Et.
    destruct (h_reduce h r (rev (map e_minor st1)) (ps_extra pp)) as [[x [v|e]]|]; auto.
    rewrite Hlhs, Etop, (goto_lookup g p p3 p4 t P s0 _ q (spine_range _ _ _ Hs) Hq (lhs_nt _ Hr)), (t_ns g p p3 p4 t P).
    pose proof (num_lt g p p3 p4 t P q (proj1 (au_edge g p A _ _ _ Hq))) as Hlt. apply Nat.ltb_lt in Hlt. now rewrite Hlt.
Qed.

(** ** Trees on the stack *)
Section Shape.
Variable mt : nat -> nat -> Prop.

Definition shape (w : list (nat * M)) (trees : list (tree M)) (Xs : list nat) : Prop :=
  Forall2 (derives g mt) (rev Xs) trees /\ flat_map yield trees = w.

Lemma derives_all_forall2 Xs ts : derives_all g mt Xs ts <-> Forall2 (derives (M := M) g mt) Xs ts.
Proof.
  split.
  - intros H. induction Xs as [|Y Xs IH] in ts, H |- *; inversion H; subst; constructor; auto.
  - induction 1; constructor; auto.
Qed.

Lemma forall2_split {S T} (Q : S -> T -> Prop) l1 l2 m : Forall2 Q (l1 ++ l2) m ->
  exists m1 m2, m = m1 ++ m2 /\ Forall2 Q l1 m1 /\ Forall2 Q l2 m2.
Proof.
  revert m. induction l1 as [|a l1 IH]; intros m H; simpl in H.
  - exists [], m. auto.
  - inversion H as [|a' b' l' m' Hab Hr]; subst. destruct (IH _ Hr) as (m1 & m2 & -> & H1 & H2). exists (b' :: m1), m2. splits; auto.
Qed.

Lemma Forall2_length {S T} (Q : S -> T -> Prop) l m : Forall2 Q l m -> List.length l = List.length m.
Proof. induction 1; simpl; auto. Qed.

Lemma shape_reduce w trees Xs1 Xs2 r : shape w trees (Xs1 ++ Xs2) -> r < nr -> rev Xs1 = map fst (r_rhs (grule g r)) ->
  exists tr1 tr2, trees = tr2 ++ tr1 /\ List.length tr1 = List.length Xs1 /\
    derives g mt (r_lhs (grule g r)) (TNode r tr1) /\ shape w (tr2 ++ [TNode r tr1]) (r_lhs (grule g r) :: Xs2).
Proof.
  intros [H1 H2] Hr HX. rewrite rev_app_distr in H1. destruct (forall2_split _ _ _ _ H1) as (tr2 & tr1 & -> & F2 & F1).
  exists tr1, tr2. assert (Hd : derives g mt (r_lhs (grule g r)) (TNode r tr1)).
  { econstructor; [apply nth_grule; auto|]. apply derives_all_forall2. now rewrite <- HX. }
  splits; auto.
  - rewrite <- (Forall2_length _ _ _ F1). now rewrite rev_length.
  - split; simpl.
    + apply Forall2_app; auto.
    + rewrite flat_map_app in *. simpl. now rewrite app_nil_r.
Qed.

Lemma shape_push w trees Xs a m Y : shape w trees Xs -> mt a Y -> shape (w ++ [(a, m)]) (trees ++ [TTok a m]) (Y :: Xs).
Proof.
  intros [H1 H2] Hm. split; simpl.
  - apply Forall2_app; auto. constructor; auto. now constructor.
  - rewrite flat_map_app, H2. reflexivity.
Qed.
End Shape.

(** ** Runs without syntax errors *)
Definition good (x0 : X) (w : list (nat * M)) (pp : parser M X R) : Prop :=
  exists st Xs s bot trees, spine st Xs s /\ ps_stack pp = st ++ [bot] /\ e_state bot = num 0 /\
    shape (tok_match g) w trees Xs /\ eval_list h trees x0 = EvOk (ps_extra pp) (map e_minor (rev st)).

Definition finished (x0 : X) (w : list (nat * M)) (pp : parser M X R) : Prop :=
  exists tree v root, ps_status pp = Accepted root /\ sentence g tree w /\
    eval h tree x0 = EvOk (ps_extra pp) v /\ h_accept h v = Some root.

Definition dropped (pp : parser M X R) : Prop := exists a, In (EvDrop a) (ps_log pp).

Lemma new_good x : good x [] (new_parser h x).
Proof.
  exists [], [], 0, (mkEntry 0 0 (h_unit h)), []. splits; auto.
  - constructor.
  - simpl. symmetry. apply num_0 with (p := p) (p3 := p3) (t := t); auto.
  - split; auto. constructor.
Qed.

Lemma eval_reduce (tr1 tr2 : list (tree M)) x0 x (st1 st2 : list (entry M)) :
  List.length tr1 = List.length st1 -> 
  eval_list h (tr2 ++ tr1) x0 = EvOk x (map e_minor (rev (st1 ++ st2))) ->
  exists x1, eval_list h tr2 x0 = EvOk x1 (map e_minor (rev st2)) /\ eval_list h tr1 x1 = EvOk x (rev (map e_minor st1)).
Proof.
  intros L H. rewrite eval_list_app in H. destruct (eval_list h tr2 x0) as [x1 vs|x1 e|] eqn:E2; try discriminate.
  destruct (eval_list h tr1 x1) as [x2 ws|x2 e|] eqn:E1; try discriminate. injection H as -> H.
  assert (Lw : forall ts x x' vs, eval_list h ts x = EvOk x' vs -> List.length vs = List.length ts).
  { clear. induction ts as [|t ts IH]; intros x x' vs H; simpl in H; [injection H as <- <-; auto|].
    destruct (eval h t x) as [x1 v|x1 e|]; try discriminate. destruct (eval_list h ts x1) as [x2 ws|x2 e|] eqn:E0; try discriminate.
    injection H as <- <-. simpl. f_equal. eapply IH; eauto. }
  rewrite rev_app_distr, map_app, map_rev, map_rev in H.
  assert (HL : List.length ws = List.length (rev (map e_minor st1))).
  { rewrite (Lw _ _ _ _ E1), rev_length, map_length. auto. }
  exists x1. rewrite map_rev.
  assert (HS : forall (a b c d : list M), a ++ b = c ++ d -> List.length b = List.length d -> a = c /\ b = d).
  { clear. induction a as [|u a IH]; intros b [|v c] d H HL; simpl in *; auto.
    - exfalso. subst b. simpl in HL. rewrite app_length in HL. lia.
    - exfalso. apply (f_equal (@List.length M)) in H. simpl in H. rewrite app_length in H. lia.
    - injection H as -> H. destruct (IH _ _ _ H HL) as [-> ->]. auto. }
  destruct (HS _ _ _ _ H HL) as [-> ->]. auto.
Qed.

Lemma yy_shift_ok (pp pp' : parser M X R) q major minor : yy_shift t h pp q major minor = ROk tt pp' ->
  pp' = set_stack pp (mkEntry q major minor :: ps_stack pp).
Proof.
  unfold yy_shift. destruct (_ && _); [|congruence]. destruct (h_overflow h major minor (ps_extra pp)). discriminate.
Qed.

Lemma good_reduce x0 w (pp pp' : parser M X R) st Xs s bot trees r :
  spine st Xs s -> ps_stack pp = st ++ [bot] -> e_state bot = num 0 ->
  shape (tok_match g) w trees Xs -> eval_list h trees x0 = EvOk (ps_extra pp) (map e_minor (rev st)) ->
  item p s (r, rlen g r) -> yy_reduce t h pp r = ROk tt pp' ->
  (r_lhs (grule g r) = g_start g /\ finished x0 w pp') \/
  (r_lhs (grule g r) <> g_start g /\ ps_status pp' = ps_status pp /\ good x0 w pp').
Proof.
  intros Hsp Est Hb Hsh Hev Hi Hred. pose proof (item_rule _ _ _ Hi) as Hr.
  destruct (yy_reduce_eq pp r st Xs s bot Hsp Est Hb Hi) as (st1 & st2 & Xs1 & Xs2 & s0 & -> & -> & L & HX & Hs & HC).
  destruct (shape_reduce _ _ _ _ _ _ Hsh Hr HX) as (tr1 & tr2 & -> & L1 & Hd & Hsh').
  destruct (eval_reduce tr1 tr2 x0 _ st1 st2 ltac:(congruence) Hev) as (x1 & E2 & E1).
  destruct HC as [(Hst & -> & -> & Hy)|(Hst & q & Hq & Hy)]; rewrite Hred in Hy.
  - left. split; auto. destruct (h_reduce h r (rev (map e_minor st1)) (ps_extra pp)) as [[x [v|e]]|] eqn:Eh; try discriminate.
    destruct (h_accept h v) as [root|] eqn:Ea; [|discriminate]. injection Hy as ->.
    assert (Ev : eval h (TNode r tr1) x1 = EvOk x v) by (rewrite eval_node, E1; unfold finish; now rewrite Eh).
    exists (TNode r tr1), v, root. splits; auto.
    + destruct Hsh' as [F Y]. assert (tr2 = []) as ->.
      { apply Forall2_length in F. rewrite app_length in F. simpl in F. destruct tr2; auto. simpl in F. lia. }
      split; [now rewrite <- Hst|]. simpl in Y. now rewrite app_nil_r in Y.
    + assert (tr2 = []) as ->.
      { destruct Hsh' as [F Y]. apply Forall2_length in F. rewrite app_length in F. simpl in F. destruct tr2; auto. simpl in F. lia. }
      simpl in E2. injection E2 as <-. exact Ev.
  - right. destruct (h_reduce h r (rev (map e_minor st1)) (ps_extra pp)) as [[x [v|e]]|] eqn:Eh; try discriminate.
    symmetry in Hy. apply yy_shift_ok in Hy. subst pp'. splits; auto.
    exists (mkEntry (num q) (r_lhs (grule g r)) v :: st2), (r_lhs (grule g r) :: Xs2), q, bot, (tr2 ++ [TNode r tr1]).
    splits; auto.
    + econstructor; eauto.
    + assert (Ev : eval h (TNode r tr1) x1 = EvOk x v) by (rewrite eval_node, E1; unfold finish; now rewrite Eh).
      rewrite eval_list_app, E2. cbn [eval_list]. rewrite Ev. cbn. now rewrite map_app.
Qed.

Lemma syntax_error_ok (pp pp' : parser M X R) s0 major minor : syntax_error t h pp s0 major minor = ROk tt pp' ->
  exists l, ps_log pp' = EvDrop major :: l.
Proof.
  unfold syntax_error, yy_parse_failed. destruct (major =? 0); [destruct (h_fail h (ps_extra pp)); discriminate|].
  destruct (t_err t =? 0); cbn [negb].
  - destruct (ps_count pp =? 0).
    + destruct (h_syntax _ _ _ _ _) as [x [v|e]]; [|discriminate]. intros H. injection H as <-. cbn. eauto.
    + intros H. injection H as <-. cbn. eauto.
  - destruct (recover t h (S (List.length (ps_stack pp))) s0 major minor pp) as [[] p1|e p1| |]; cbn [rbind]; try discriminate.
    destruct (ps_stack p1) eqn:Es1; [unfold yy_parse_failed; destruct (h_fail h (ps_extra p1)); discriminate|]. intros H. injection H as <-. cbn. eauto.
Qed.

Lemma token_good fuel : forall x0 w (pp pp' : parser M X R) major minor,
  ps_status pp = Normal -> good x0 w pp -> tokenish g major ->
  parse_token_2 fuel t h pp major minor = ROk tt pp' ->
  dropped pp' \/ (major = 0 /\ finished x0 w pp') \/
  (major <> 0 /\ ps_status pp' = Normal /\ good x0 (w ++ [(major, minor)]) pp').
Proof.
  induction fuel as [|fuel IH]; intros x0 w pp pp' major minor Hn Hg Ht H; [discriminate|].
  cbn [parse_token_2] in H. rewrite Hn in H. pose proof Hg as (st & Xs & s & bot & trees & Hsp & Est & Hb & Hsh & Hev).
  destruct (spine_top _ _ _ bot Hsp Hb) as (top & rest & Et & Etop). rewrite Est, Et in H. rewrite Etop in H.
  destruct (shift_answer g p p3 p4 t P s major (spine_range _ _ _ Hsp) Ht) as (a & Ha & HA). rewrite Ha in H.
  rewrite (t_ns g p p3 p4 t P), (t_nr g p p3 p4 t P) in H.
  inversion HA as [Y q Hq Hm Hz Ea|r b Hl Hz Ea|Ea]; subst a.
  - pose proof (num_lt g p p3 p4 t P q (proj1 (au_edge g p A _ _ _ Hq))) as Hlt. apply Nat.ltb_lt in Hlt. rewrite Hlt in H.
    destruct (Nat.eqb_spec major 0) as [|_]; [contradiction|].
    destruct (yy_shift t h pp (num q) major minor) as [[] p1|e p1| |] eqn:Es; try discriminate. simpl in H. injection H as <-.
    apply yy_shift_ok in Es. subst p1. right. right. splits; auto.
    exists (mkEntry (num q) major minor :: st), (Y :: Xs), q, bot, (trees ++ [TTok major minor]). splits; auto.
    + econstructor; eauto.
    + cbn. now rewrite Est.
    + now apply shape_push.
    + rewrite eval_list_app, Hev. cbn. now rewrite map_app.
  - replace (ns + r <? ns) with false in H by (symmetry; apply Nat.ltb_ge; lia).
    pose proof (item_rule _ _ _ (look_item _ _ _ Hl)) as Hr. replace (ns + r <? ns + nr) with true in H by (symmetry; apply Nat.ltb_lt; lia).
    replace (ns + r - ns) with r in H by lia.
    destruct (yy_reduce t h pp r) as [[] p1|e p1| |] eqn:Er; try discriminate. simpl in H.
    destruct (good_reduce _ _ _ _ _ _ _ _ _ _ Hsp Est Hb Hsh Hev (look_item _ _ _ Hl) Er) as [(Hst & HF)|(Hst & Hs1 & HG)].
    + right. left. split; [auto|]. destruct fuel; [discriminate|]. cbn [parse_token_2] in H. destruct HF as (tr & v & root & Hs1 & HF).
      rewrite Hs1 in H. injection H as <-. exists tr, v, root. auto.
    + apply (IH x0 w p1 pp' major minor); auto. now rewrite Hs1.
  - replace (ns + nr <? ns) with false in H by (symmetry; apply Nat.ltb_ge; lia). rewrite Nat.ltb_irrefl, Nat.eqb_refl in H.
    left. apply syntax_error_ok in H as [l Hl]. exists major. rewrite Hl. now left.
Qed.

Lemma parse_token_good fuel x0 w (pp pp' : parser M X R) major minor :
  ps_status pp = Normal -> good x0 w pp -> tokenish g major -> parse_token fuel t h pp major minor = ROk tt pp' ->
  dropped pp' \/ (major = 0 /\ finished x0 w pp') \/
  (major <> 0 /\ ps_status pp' = Normal /\ good x0 (w ++ [(major, minor)]) pp').
Proof.
  intros Hn Hg Ht H. unfold parse_token in H. rewrite Hn in H.
  destruct (parse_token_2 fuel t h pp major minor) as [[] p1|e p1| |] eqn:E2; try discriminate. injection H as <-.
  eapply token_good; eauto.
Qed.

Definition tokens_ok (ts : list (nat * M)) : Prop := forall a m, In (a, m) ts -> 0 < a < g_nterm g.

Lemma dropped_ext (p1 p2 : parser M X R) : ext p1 p2 -> dropped p1 -> dropped p2.
Proof. intros H [a Ha]. exists a. eapply ext_in; eauto. Qed.

Theorem parse_all_good fuel ts : forall x0 w (pp pp' : parser M X R),
  tokens_ok ts -> ps_status pp = Normal -> good x0 w pp -> parse_all fuel t h pp ts = ROk tt pp' -> ~ dropped pp' ->
  ps_status pp' = Normal /\ good x0 (w ++ ts) pp'.
Proof.
  induction ts as [|[a m] ts IH]; intros x0 w pp pp' Hts Hn Hg H Hd; cbn [parse_all] in H.
  - injection H as <-. rewrite app_nil_r. auto.
  - destruct (parse_token fuel t h pp a m) as [[] p1|e p1| |] eqn:E1; try discriminate. cbn [rbind] in H.
    pose proof (Hts a m (or_introl eq_refl)) as Ha.
    destruct (parse_token_good _ _ _ _ _ _ _ Hn Hg (or_introl (proj2 Ha)) E1) as [D|[[Hz _]|(Hz & Hn1 & Hg1)]].
    + exfalso. apply Hd. eapply dropped_ext; [|exact D]. pose proof (parse_all_ext t h fuel ts p1) as HE. now rewrite H in HE.
    + lia.
    + replace (w ++ (a, m) :: ts) with ((w ++ [(a, m)]) ++ ts) by (rewrite <- app_assoc; reflexivity).
      eapply IH; eauto. intros a' m' Hin. apply (Hts a' m'). now right.
Qed.

(** C01 *)
Theorem run_sound fuel x ts r x' pp : tokens_ok ts -> run fuel t h x ts = ROk (r, x') pp -> ~ dropped pp ->
  exists tree v, sentence g tree ts /\ eval h tree x = EvOk x' v /\ h_accept h v = Some r.
Proof.
  intros Hts H Hd. unfold run in H. destruct (parse_all fuel t h (new_parser h x) ts) as [[] p1|e p1| |] eqn:E1; try discriminate.
  cbn [rbind] in H. unfold end_of_input in H.
  destruct (parse_token fuel t h p1 0 (h_unit h)) as [[] p2|e p2| |] eqn:E2; try discriminate. cbn [rbind] in H.
  destruct (ps_status p2) as [| |root] eqn:Es; try discriminate. injection H as <- <- <-.
  assert (Hd1 : ~ dropped p1).
  { intros D. apply Hd. eapply dropped_ext; [|exact D]. pose proof (parse_token_ext t h fuel p1 0 (h_unit h)) as HE. now rewrite E2 in HE. }
  destruct (parse_all_good fuel ts x [] (new_parser h x) p1 Hts eq_refl (new_good x) E1 Hd1) as [Hn Hg].
  assert (Ht : tokenish g 0) by (left; apply (wg_nterm_pos g W)).
  destruct (parse_token_good _ _ _ _ _ _ _ Hn Hg Ht E2) as [D|[[_ HF]|(Hz & _)]]; [contradiction| |contradiction].
  destruct HF as (tree & v & root' & Hs & Hsent & Hev & Hac). exists tree, v. splits; auto. congruence.
Qed.

(** ** Valid prefixes (C04) *)
Definition productive : Prop :=
  forall r ru Y al, nth_error (g_rules g) r = Some ru -> In (Y, al) (r_rhs ru) ->
    exists tr : tree M, derives g (tok_match g) Y tr /\ tokens_ok (yield tr).
Lemma tokens_ok_app l1 l2 : tokens_ok l1 -> tokens_ok l2 -> tokens_ok (l1 ++ l2).
Proof. intros H1 H2 a m Hin. apply in_app_iff in Hin as [Hin|Hin]; eauto. Qed.

Lemma productive_all r ru d : productive -> nth_error (g_rules g) r = Some ru ->
  exists us : list (tree M), Forall2 (derives g (tok_match g)) (map fst (skipn d (r_rhs ru))) us /\ tokens_ok (flat_map yield us).
Proof.
  intros HP Hr. assert (Hin : forall y, In y (skipn d (r_rhs ru)) -> In y (r_rhs ru)).
  { intros y Hy. rewrite <- (firstn_skipn d (r_rhs ru)). apply in_or_app. now right. }
  induction (skipn d (r_rhs ru)) as [|[Y al] l IH]; simpl; [exists []; split; [constructor|intros ? ? []]|].
  destruct (HP _ _ Y al Hr (Hin _ (or_introl eq_refl))) as (u & Hu & Hok). destruct IH as (us & Hus & Hoks); [intros; apply Hin; now right|].
  exists (u :: us). split; [constructor; auto|]. now apply tokens_ok_app.
Qed.

Lemma skipn_nth {T} (l : list T) d x : nth_error l d = Some x -> skipn d l = x :: skipn (S d) l.
Proof.
  revert d. induction l as [|y l IH]; intros [|d] H; try discriminate; simpl in *; [congruence|]. now rewrite (IH d H).
Qed.

Lemma lr0_completes gamma r d : productive -> lr0 g gamma r d -> forall ru ts us,
  nth_error (g_rules g) r = Some ru -> Forall2 (derives g (tok_match g)) gamma ts ->
  Forall2 (derives g (tok_match g)) (map fst (skipn d (r_rhs ru))) us ->
  exists (tr : tree M) w, derives g (tok_match g) (g_start g) tr /\
    yield tr = flat_map yield ts ++ flat_map yield us ++ w /\ tokens_ok w.
Proof.
  intros HP. induction 1 as [r ru0 Hr Hl|gamma r ru0 d Y al H IH Hr Hn|gamma r ru0 d Y al q qu H IH Hr Hn Hq Hl];
    intros ru ts us Hru Hts Hus.
  - assert (ru = ru0) as -> by congruence. inversion Hts; subst. exists (TNode r us), []. splits.
    + rewrite <- Hl. econstructor; eauto. now apply derives_all_forall2.
    + simpl. now rewrite app_nil_r.
    + intros ? ? [].
  - assert (ru = ru0) as -> by congruence. destruct (forall2_split _ _ _ _ Hts) as (ts1 & ts2 & -> & F1 & F2).
    inversion F2 as [|? tr ? ? Ht Hnil]; subst. inversion Hnil; subst. clear F2 Hnil.
    destruct (IH ru0 ts1 (tr :: us) Hr F1) as (T & w & HT & HY & Hw).
    + rewrite (skipn_nth _ _ _ Hn). simpl. constructor; auto.
    + exists T, w. splits; auto. rewrite HY. rewrite flat_map_app. simpl. rewrite app_nil_r, <- !app_assoc. reflexivity.
  - assert (ru = qu) as -> by congruence. destruct (productive_all r ru0 (S d) HP Hr) as (us' & Hus' & Hok').
    destruct (IH ru0 ts (TNode q us :: us') Hr Hts) as (T & w & HT & HY & Hw).
    + rewrite (skipn_nth _ _ _ Hn). simpl. constructor; auto. rewrite <- Hl. econstructor; eauto. now apply derives_all_forall2.
    + exists T, (flat_map yield us' ++ w). splits; auto; [rewrite HY; simpl; now rewrite <- !app_assoc|now apply tokens_ok_app].
Qed.

Lemma spine_item st Xs s : spine st Xs s -> rules_of g (g_start g) <> [] -> exists k, item p s k.
Proof.
  intros Hs Hr. inversion Hs as [|st' Xs' s' e Y q H Hq He]; subst.
  - destruct (rules_of g (g_start g)) as [|r l] eqn:El; [contradiction|]. exists (r, 0). apply (au_start g p A). rewrite El. now left.
  - destruct (au_edge g p A _ _ _ Hq) as (_ & k & Hi & Hk). exists (kadv k). eapply (au_goto g p A); eauto.
Qed.

Theorem good_prefix x0 w (pp : parser M X R) : productive -> rules_of g (g_start g) <> [] -> good x0 w pp ->
  exists (tr : tree M) w', sentence g tr (w ++ w') /\ tokens_ok w'.
Proof.
  intros HP Hne (st & Xs & s & bot & trees & Hsp & Est & Hb & [F Y] & Hev).
  destruct (spine_item _ _ _ Hsp Hne) as [[r d] Hi]. pose proof (item_lr0 g p A _ _ _ (spine_path _ _ _ Hsp) Hi) as HL.
  simpl in HL. pose proof (nth_grule g r (item_rule _ _ _ Hi)) as Hr.
  destruct (productive_all r _ d HP Hr) as (us & Hus & Hok).
  destruct (lr0_completes _ _ _ HP HL _ trees us Hr F Hus) as (T & w' & HT & HY & Hw).
  exists T, (flat_map yield us ++ w'). split; [split; auto; now rewrite HY, Y|now apply tokens_ok_app].
Qed.
End Run.
